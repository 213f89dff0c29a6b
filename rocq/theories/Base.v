(** Bytes, byte strings and the handful of slice helpers shared by every
    model file.  Nothing here is specific to vimwiki-rs. *)
From Coq Require Export Strings.String.
From Coq Require Export List Arith Bool Lia ZArith.
From Coq Require Export Init.Byte.
From Coq Require Strings.Byte.
Export ListNotations.

(** A Rust [str] or [&[u8]]: a list of bytes. *)
Definition str := list byte.

(** String literal to bytes. *)
Definition bs (s : String.string) : str := String.list_byte_of_string s.
Arguments bs s%string.

Definition beqb (a b : byte) : bool := Byte.eqb a b.

Lemma beqb_eq a b : beqb a b = true <-> a = b.
Proof.
  unfold beqb. split; intro H.
  - now apply Byte.byte_dec_bl.
  - now apply Byte.byte_dec_lb.
Qed.

Lemma beqb_refl a : beqb a a = true.
Proof. now apply beqb_eq. Qed.

Lemma beqb_neq a b : beqb a b = false <-> a <> b.
Proof.
  split; intro H.
  - intro E. apply beqb_eq in E. congruence.
  - destruct (beqb a b) eqn:E; auto. apply beqb_eq in E. contradiction.
Qed.

Lemma beqb_spec a b : reflect (a = b) (beqb a b).
Proof. apply iff_reflect. symmetry. apply beqb_eq. Qed.

Lemma byte_eq_dec (a b : byte) : {a = b} + {a <> b}.
Proof. destruct (beqb a b) eqn:E; [left; now apply beqb_eq | right; now apply beqb_neq]. Defined.

(** Equality test on byte strings. *)
Fixpoint str_eqb (a b : str) : bool :=
  match a, b with
  | [], [] => true
  | x :: a', y :: b' => beqb x y && str_eqb a' b'
  | _, _ => false
  end.

Lemma str_eqb_eq a b : str_eqb a b = true <-> a = b.
Proof.
  revert b. induction a as [|x a IH]; destruct b as [|y b]; simpl; split; intro H;
    try reflexivity; try discriminate.
  - apply andb_true_iff in H as [H1 H2].
    apply beqb_eq in H1. apply IH in H2. congruence.
  - injection H as -> ->. rewrite beqb_refl. now apply IH.
Qed.

Lemma str_eqb_refl a : str_eqb a a = true.
Proof. now apply str_eqb_eq. Qed.

Lemma str_eqb_neq a b : str_eqb a b = false <-> a <> b.
Proof.
  split; intro H.
  - intro E. apply str_eqb_eq in E. congruence.
  - destruct (str_eqb a b) eqn:E; auto. apply str_eqb_eq in E. contradiction.
Qed.

(** Byte constants. *)
Definition b_nl : byte := x0a.
Definition b_cr : byte := x0d.
Definition b_tab : byte := x09.
Definition b_sp : byte := x20.

Definition is_nl (b : byte) : bool := beqb b b_nl.

(** [u8::is_ascii_whitespace]: space, \t, \n, \x0C, \r. *)
Definition is_ascii_ws (b : byte) : bool :=
  match b with x20 | x09 | x0a | x0c | x0d => true | _ => false end.

(** [nom::character::is_space]: space or tab. *)
Definition is_space (b : byte) : bool :=
  match b with x20 | x09 => true | _ => false end.

(** ASCII digits ([nom::character::is_digit]). *)
Definition byte_n (b : byte) : nat := N.to_nat (Byte.to_N b).
Definition is_digit (b : byte) : bool :=
  (48 <=? byte_n b) && (byte_n b <=? 57).
Definition is_lower (b : byte) : bool :=
  (97 <=? byte_n b) && (byte_n b <=? 122).
Definition is_upper (b : byte) : bool :=
  (65 <=? byte_n b) && (byte_n b <=? 90).
Definition is_alpha (b : byte) : bool := is_lower b || is_upper b.
Definition is_ascii (b : byte) : bool := byte_n b <? 128.

(** Prefix test. *)
Fixpoint starts_with (p l : str) : bool :=
  match p, l with
  | [], _ => true
  | x :: p', y :: l' => beqb x y && starts_with p' l'
  | _ :: _, [] => false
  end.

Lemma starts_with_spec p l :
  starts_with p l = true <-> exists r, l = p ++ r.
Proof.
  revert l. induction p as [|x p IH]; intro l; simpl.
  - split; eauto.
  - destruct l as [|y l].
    + split; [discriminate | intros [r H]; discriminate].
    + rewrite andb_true_iff, beqb_eq, IH. split.
      * intros [-> [r ->]]. eauto.
      * intros [r H]. injection H as -> ->. eauto.
Qed.

(** Position of the first element satisfying [p]
    ([memchr], [memchr2], [memchr3], [InputIter::position]). *)
Fixpoint find_pos {A} (p : A -> bool) (l : list A) : option nat :=
  match l with
  | [] => None
  | x :: l' => if p x then Some 0 else option_map S (find_pos p l')
  end.

(** All positions satisfying [p], ascending, the first element of [l] having
    position [i] ([memchr_iter], [memchr2_iter], [memchr3_iter]). *)
Fixpoint positions_from {A} (p : A -> bool) (i : nat) (l : list A) : list nat :=
  match l with
  | [] => []
  | x :: l' => if p x then i :: positions_from p (S i) l'
               else positions_from p (S i) l'
  end.
Definition positions {A} (p : A -> bool) (l : list A) : list nat :=
  positions_from p 0 l.

(** Slice [l[i..j]] (no panic: callers keep [i <= j <= length l]). *)
Definition slice {A} (i j : nat) (l : list A) : list A := firstn (j - i) (skipn i l).

(** Number of leading elements satisfying [p]. *)
Fixpoint count_while {A} (p : A -> bool) (l : list A) : nat :=
  match l with
  | [] => 0
  | x :: l' => if p x then S (count_while p l') else 0
  end.
