(** Scanning what was written token by token. *)
From Verif Require Import Base ModelSpan ModelAst ModelTable ModelLink ModelElem ModelPath ModelHtml SpecHtml.

Definition show_attr (kv : str * str) : str := bs " " ++ fst kv ++ bs "=""" ++ snd kv ++ bs """".
Definition show_attrs (a : list (str * str)) : str := flat_map show_attr a.
Definition show_tok (t : token) : str :=
  match t with
  | TkText s => s
  | TkOpen n a => bs "<" ++ n ++ show_attrs a ++ bs ">"
  | TkVoid n a => bs "<" ++ n ++ show_attrs a ++ bs " />"
  | TkClose n => bs "</" ++ n ++ bs ">"
  | TkComment s => bs "<!--" ++ s ++ bs "-->"
  end.
Definition show (ts : list token) : str := flat_map show_tok ts.

Definition name_markup : str := bs " <>/!=""".
Definition attr_ok (kv : str * str) : Prop :=
  fst kv <> [] /\ free key_markup (fst kv) /\ free attr_markup (snd kv).
Definition tok_ok (t : token) : Prop :=
  match t with
  | TkText s => free markup s
  | TkOpen n a | TkVoid n a => n <> [] /\ free name_markup n /\ Forall attr_ok a
  | TkClose n => n <> [] /\ free name_markup n
  | TkComment s => free (bs ">") s
  end.

(** Adjacent texts merged, empty texts dropped. *)
Definition cons_tok (t : token) (ts : list token) : list token :=
  match t with
  | TkText [] => ts
  | TkText s => match ts with TkText s' :: r => TkText (s ++ s') :: r | _ => TkText s :: ts end
  | _ => t :: ts
  end.
Definition norm (ts : list token) : list token := fold_right cons_tok [] ts.

Lemma norm_cons t ts : norm (t :: ts) = cons_tok t (norm ts).
Proof. reflexivity. Qed.

Definition is_text (t : token) : bool := match t with TkText _ => true | _ => false end.
Fixpoint normal (ts : list token) : Prop :=
  match ts with
  | [] => True
  | t :: ts' =>
      match t with
      | TkText s => s <> [] /\ match ts' with t' :: _ => is_text t' = false | [] => True end
      | _ => True
      end /\ normal ts'
  end.

Lemma show_app a b : show (a ++ b) = show a ++ show b.
Proof. unfold show. now rewrite flat_map_app. Qed.

Lemma show_cons_tok t ts : show (cons_tok t ts) = show_tok t ++ show ts.
Proof.
  destruct t as [[|b s]| | | |]; try reflexivity.
  destruct ts as [|[s'| | | |] ts]; try reflexivity.
  cbn [cons_tok show flat_map show_tok]. unfold show. now rewrite app_assoc.
Qed.
Lemma show_norm ts : show (norm ts) = show ts.
Proof. induction ts as [|t ts IH]; [reflexivity|]. rewrite norm_cons. now rewrite show_cons_tok, IH. Qed.

Lemma normal_cons_tok t ts : normal ts -> normal (cons_tok t ts).
Proof.
  intro N. destruct t as [[|b s]| | | |]; try (cbn; now auto).
  destruct ts as [|[s'| | | |] ts]; cbn in *; repeat split; try tauto; try discriminate.
  all: try (destruct N as [[_ N] _]; exact N).
Qed.
Lemma normal_norm ts : normal (norm ts).
Proof. induction ts; [exact I|]. now apply normal_cons_tok. Qed.

Lemma free_app bad a b : free bad (a ++ b) <-> free bad a /\ free bad b.
Proof. apply Forall_app. Qed.
Lemma tok_ok_cons t ts : tok_ok t -> Forall tok_ok ts -> Forall tok_ok (cons_tok t ts).
Proof.
  intros H F. destruct t as [[|b s]| | | |]; try (constructor; auto; fail); [exact F|].
  destruct ts as [|[s'| | | |] ts]; try (constructor; auto; fail).
  inversion F; subst. constructor; auto. cbn [tok_ok] in *. now apply free_app.
Qed.
Lemma tok_ok_norm ts : Forall tok_ok ts -> Forall tok_ok (norm ts).
Proof. induction 1; [constructor|]. now apply tok_ok_cons. Qed.

(** Measures that do not see the difference. *)
Lemma ids_app a b : ids (a ++ b) = ids a ++ ids b.
Proof. apply flat_map_app. Qed.
Lemma ids_cons_tok t ts : ids (cons_tok t ts) = attr_ids (tk_attrs t) ++ ids ts.
Proof.
  destruct t as [[|b s]| | | |]; try reflexivity.
  destruct ts as [|[s'| | | |] ts]; reflexivity.
Qed.
Lemma ids_norm ts : ids (norm ts) = ids ts.
Proof. induction ts as [|t ts IH]; [reflexivity|]. rewrite norm_cons. now rewrite ids_cons_tok, IH. Qed.
Lemma nested_cons_tok t ts st : nested st (cons_tok t ts) = nested st (t :: ts).
Proof.
  destruct t as [[|b s]| | | |]; try reflexivity.
  destruct ts as [|[s'| | | |] ts]; reflexivity.
Qed.
Lemma nested_norm ts : forall st, nested st (norm ts) = nested st ts.
Proof.
  induction ts as [|t ts IH]; intro st; [reflexivity|]. rewrite norm_cons. rewrite nested_cons_tok.
  fold (norm ts). destruct t; cbn [nested]; auto. destruct st; auto. now rewrite IH.
Qed.
Lemma texts_cons_tok t ts : texts (cons_tok t ts) = texts [t] ++ texts ts.
Proof.
  destruct t as [[|b s]| | | |]; try reflexivity.
  destruct ts as [|[s'| | | |] ts]; unfold texts; cbn [cons_tok flat_map]; rewrite ?app_nil_r, <- ?app_assoc; reflexivity.
Qed.
Lemma texts_norm ts : texts (norm ts) = texts ts.
Proof.
  induction ts as [|t ts IH]; [reflexivity|]. rewrite norm_cons. rewrite texts_cons_tok. fold (norm ts).
  rewrite IH. unfold texts. cbn [flat_map]. now rewrite app_nil_r.
Qed.
Lemma in_norm_tag t ts : is_text t = false -> (In t (norm ts) <-> In t ts).
Proof.
  intro N. induction ts as [|u ts IH]; [reflexivity|]. rewrite norm_cons.
  destruct u as [[|b s]| | | |].
  1: { cbn [cons_tok]. rewrite IH. split; [now right|]. intros [E|E]; auto. subst. discriminate. }
  1: { assert (K : In t (cons_tok (TkText (b :: s)) (norm ts)) <-> In t (norm ts)).
       { destruct (norm ts) as [|[s'| | | |] r]; cbn [cons_tok In]; split; intros H;
           repeat match goal with
           | H : _ \/ _ |- _ => destruct H
           | H : TkText _ = t |- _ => subst t; discriminate
           end; auto. all: try (subst; discriminate). all: auto. }
       rewrite K, IH. split; [now right|]. intros [E|E]; auto. subst. discriminate. }
  all: cbn [cons_tok In]; rewrite IH; reflexivity.
Qed.

(** * The scanner reads it back *)

Lemma until_stop stop a b r : Forall (fun x => stop x = false) a -> stop b = true ->
  until stop (a ++ b :: r) = (a, b :: r).
Proof.
  intros H B. induction H as [|x a X _ IH]; cbn [app until]; [now rewrite B|].
  now rewrite X, IH.
Qed.
Lemma until_end stop a : Forall (fun x => stop x = false) a -> until stop a = (a, []).
Proof. induction 1 as [|x a X _ IH]; cbn [until]; [reflexivity|]. now rewrite X, IH. Qed.

Lemma free_stop bad x a : In x bad -> free bad a -> Forall (fun b => is_b x b = false) a.
Proof.
  intros I F. eapply Forall_impl; [|exact F]. intros b N. apply beqb_neq. intros ->. contradiction.
Qed.

Lemma bs1 (x : byte) s r : bs s = [x] -> bs s ++ r = x :: r.
Proof. now intros ->. Qed.

Lemma scan_attrs_show a : Forall attr_ok a -> forall fuel (e : bool) r,
  length (show_attrs a) < fuel ->
  scan_attrs fuel (show_attrs a ++ (if e then bs " />" else bs ">") ++ r) = Some (a, e, r).
Proof.
  induction 1 as [|[k v] a [K [FK FV]] _ IH]; intros fuel e r L.
  - destruct fuel; [cbn in L; lia|]. destruct e; reflexivity.
  - cbn [fst snd] in K, FK, FV.
    cbn [show_attrs flat_map]. fold (show_attrs a). rewrite <- app_assoc.
    set (tl := show_attrs a ++ (if e then bs " />" else bs ">") ++ r) in *.
    unfold show_attr. cbn [fst snd]. rewrite <- !app_assoc.
    assert (L' : length (show_attrs a) + 4 <= fuel - 1).
    { cbn [show_attrs flat_map] in L. fold (show_attrs a) in L. unfold show_attr in L. cbn [fst snd] in L.
      rewrite !app_length in L. cbn [length bs String.list_byte_of_string] in L.
      change (length (bs " ")) with 1 in L. change (length (bs "=""")) with 2 in L.
      change (length (bs """")) with 1 in L. destruct k; [contradiction|]. cbn [length] in L. lia. }
    destruct fuel as [|f]; [lia|]. cbn [scan_attrs].
    destruct k as [|k0 k]; [contradiction|].
    assert (K0 : beqb x2f k0 = false).
    { inversion FK; subst. apply beqb_neq. intros <-. apply H1. cbn. tauto. }
    change (bs " " ++ ?l) with (x20 :: l).
    replace (starts_with (bs ">") (x20 :: (k0 :: k) ++ bs "=""" ++ v ++ bs """" ++ tl)) with false by reflexivity.
    replace (starts_with (bs " />") (x20 :: (k0 :: k) ++ bs "=""" ++ v ++ bs """" ++ tl)) with false.
    2: { cbn [app]. change (bs " />") with [x20; x2f; x3e]. cbn [starts_with]. rewrite K0, beqb_refl. reflexivity. }
    replace (starts_with (bs " ") (x20 :: (k0 :: k) ++ bs "=""" ++ v ++ bs """" ++ tl)) with true by reflexivity.
    cbn [skipn]. change (bs "=""" ++ ?l) with (x3d :: x22 :: l).
    rewrite (until_stop (is_b x3d) (k0 :: k)); [|eapply free_stop; [|exact FK]; cbn; tauto | reflexivity].
    cbn [str_eqb negb andb starts_with bs]. change (bs "=""") with [x3d; x22].
    cbn [starts_with]. rewrite !beqb_refl. cbn [andb skipn].
    change (bs """" ++ tl) with (x22 :: tl).
    rewrite (until_stop (is_b x22) v); [|eapply free_stop; [|exact FV]; cbn; tauto | reflexivity].
    change (starts_with (bs """") (x22 :: tl)) with true. cbn iota. cbn [skipn].
    unfold tl. rewrite IH by lia. reflexivity.
Qed.

Lemma scan_comment_show s r : free (bs ">") s -> scan_comment (s ++ bs "-->" ++ r) = Some (s, r).
Proof.
  intro F. induction s as [|b s IH].
  - change ([] ++ bs "-->" ++ r) with (x2d :: x2d :: x3e :: r).
    unfold scan_comment. change (starts_with (bs "-->") (x2d :: x2d :: x3e :: r)) with true. reflexivity.
  - inversion F as [|? ? B F']; subst. cbn [app scan_comment].
    assert (N : starts_with (bs "-->") (b :: s ++ bs "-->" ++ r) = false).
    { change (bs "-->") with [x2d; x2d; x3e] at 1. cbn [starts_with].
      destruct (beqb_spec x2d b) as [<-|]; [|reflexivity].
      destruct s as [|b2 s].
      - change ([] ++ bs "-->" ++ r) with (x2d :: x2d :: x3e :: r). reflexivity.
      - inversion F' as [|? ? B2 F2]; subst. cbn [app starts_with andb].
        destruct (beqb_spec x2d b2) as [<-|]; [|reflexivity].
        destruct s as [|b3 s].
        + change ([] ++ bs "-->" ++ r) with (x2d :: x2d :: x3e :: r). reflexivity.
        + inversion F2 as [|? ? B3 _]; subst. cbn [app starts_with andb].
          destruct (beqb_spec x3e b3) as [<-|]; [|reflexivity].
          exfalso. apply B3. cbn. tauto. }
    rewrite N. rewrite IH by exact F'. reflexivity.
Qed.

Lemma name_first b n bad : free bad (b :: n) -> ~ In b bad.
Proof. intro F. now inversion F. Qed.

Lemma scan_go_show ts : Forall tok_ok ts -> normal ts -> forall fuel, length (show ts) < fuel ->
  scan_go fuel (show ts) = Some ts.
Proof.
  induction 1 as [|t ts T _ IH]; intros N fuel L.
  - destruct fuel; [cbn in L; lia|]. reflexivity.
  - destruct N as [Nt N]. specialize (IH N).
    cbn [show flat_map] in L |- *. fold (show ts) in L |- *. rewrite app_length in L.
    destruct fuel as [|f]; [lia|].
    destruct t as [s|n a|n a|n|s]; cbn [show_tok] in L |- *; cbn [tok_ok] in T.
    + destruct Nt as [Ns Nx]. destruct s as [|b s]; [contradiction|].
      assert (B : ~ In b markup) by (inversion T; auto).
      assert (B1 : beqb x3c b = false) by (apply beqb_neq; intros <-; apply B; cbn; tauto).
      cbn [scan_go app].
      replace (starts_with (bs "</") (b :: s ++ show ts)) with false
        by (change (bs "</") with [x3c; x2f]; cbn [starts_with]; now rewrite B1).
      replace (starts_with (bs "<!--") (b :: s ++ show ts)) with false
        by (change (bs "<!--") with [x3c; x21; x2d; x2d]; cbn [starts_with]; now rewrite B1).
      replace (starts_with (bs "<") (b :: s ++ show ts)) with false
        by (change (bs "<") with [x3c]; cbn [starts_with]; now rewrite B1).
      assert (U : until (is_b x3c) (b :: s ++ show ts) = (b :: s, show ts)).
      { assert (F : Forall (fun c => is_b x3c c = false) (b :: s))
          by (eapply free_stop; [|exact T]; cbn; tauto).
        destruct ts as [|t' ts'].
        - cbn [show flat_map]. rewrite app_nil_r. now apply until_end.
        - assert (H : exists r, show (t' :: ts') = x3c :: r)
            by (destruct t'; try discriminate; cbn [show flat_map show_tok]; eexists; reflexivity).
          destruct H as [r ->]. change (b :: s ++ x3c :: r) with ((b :: s) ++ x3c :: r).
          now apply until_stop. }
      rewrite U. rewrite IH; [reflexivity|]. cbn [length] in L. lia.
    + destruct T as (Nn & Fn & A). destruct n as [|c n]; [contradiction|].
      assert (C := name_first _ _ _ Fn).
      rewrite <- !app_assoc. change (bs "<" ++ ?l) with (x3c :: l).
      set (tl := show_attrs a ++ bs ">" ++ show ts).
      assert (HT : exists b tl', tl = b :: tl' /\ (is_b x3e b || is_b x20 b) = true).
      { unfold tl. destruct a; cbn [show_attrs flat_map app]; eexists _, _; split; reflexivity. }
      cbn [scan_go app].
      replace (starts_with (bs "</") (x3c :: c :: n ++ tl)) with false.
      2: { change (bs "</") with [x3c; x2f]. cbn [starts_with]. rewrite beqb_refl.
           destruct (beqb_spec x2f c) as [<-|]; [|reflexivity]. exfalso. apply C. cbn. tauto. }
      replace (starts_with (bs "<!--") (x3c :: c :: n ++ tl)) with false.
      2: { change (bs "<!--") with [x3c; x21; x2d; x2d]. cbn [starts_with]. rewrite beqb_refl.
           destruct (beqb_spec x21 c) as [<-|]; [|reflexivity]. exfalso. apply C. cbn. tauto. }
      replace (starts_with (bs "<") (x3c :: c :: n ++ tl)) with true by reflexivity.
      cbn [skipn].
      assert (U : until (fun b => is_b x3e b || is_b x20 b) (c :: n ++ tl) = (c :: n, tl)).
      { destruct HT as (b & tl' & -> & Hb). apply (until_stop _ (c :: n)); [|exact Hb].
        eapply Forall_impl; [|exact Fn]. intros x X. unfold is_b.
        apply orb_false_iff; split; apply beqb_neq; intros <-; apply X; cbn; tauto. }
      rewrite U. cbn [str_eqb].
      change tl with (show_attrs a ++ (if false then bs " />" else bs ">") ++ show ts).
      rewrite scan_attrs_show; auto.
      2: { rewrite !app_length. lia. }
      rewrite IH; [reflexivity|].
      rewrite !app_length in L. change (length (bs "<")) with 1 in L. cbn [length] in L. lia.
    + destruct T as (Nn & Fn & A). destruct n as [|c n]; [contradiction|].
      assert (C := name_first _ _ _ Fn).
      rewrite <- !app_assoc. change (bs "<" ++ ?l) with (x3c :: l).
      set (tl := show_attrs a ++ bs " />" ++ show ts).
      assert (HT : exists b tl', tl = b :: tl' /\ (is_b x3e b || is_b x20 b) = true).
      { unfold tl. destruct a; cbn [show_attrs flat_map app]; eexists _, _; split; reflexivity. }
      cbn [scan_go app].
      replace (starts_with (bs "</") (x3c :: c :: n ++ tl)) with false.
      2: { change (bs "</") with [x3c; x2f]. cbn [starts_with]. rewrite beqb_refl.
           destruct (beqb_spec x2f c) as [<-|]; [|reflexivity]. exfalso. apply C. cbn. tauto. }
      replace (starts_with (bs "<!--") (x3c :: c :: n ++ tl)) with false.
      2: { change (bs "<!--") with [x3c; x21; x2d; x2d]. cbn [starts_with]. rewrite beqb_refl.
           destruct (beqb_spec x21 c) as [<-|]; [|reflexivity]. exfalso. apply C. cbn. tauto. }
      replace (starts_with (bs "<") (x3c :: c :: n ++ tl)) with true by reflexivity.
      cbn [skipn].
      assert (U : until (fun b => is_b x3e b || is_b x20 b) (c :: n ++ tl) = (c :: n, tl)).
      { destruct HT as (b & tl' & -> & Hb). apply (until_stop _ (c :: n)); [|exact Hb].
        eapply Forall_impl; [|exact Fn]. intros x X. unfold is_b.
        apply orb_false_iff; split; apply beqb_neq; intros <-; apply X; cbn; tauto. }
      rewrite U. cbn [str_eqb].
      change tl with (show_attrs a ++ (if true then bs " />" else bs ">") ++ show ts).
      rewrite scan_attrs_show; auto.
      2: { rewrite !app_length. lia. }
      rewrite IH; [reflexivity|].
      rewrite !app_length in L. change (length (bs "<")) with 1 in L. cbn [length] in L. lia.
    + destruct T as (Nn & Fn). destruct n as [|c n]; [contradiction|].
      rewrite <- !app_assoc. change (bs "</" ++ ?l) with (x3c :: x2f :: l).
      cbn [scan_go].
      change (starts_with (bs "</") (x3c :: x2f :: (c :: n) ++ bs ">" ++ show ts)) with true.
      cbn iota. cbn [skipn]. change (bs ">" ++ show ts) with (x3e :: show ts).
      rewrite (until_stop (is_b x3e) (c :: n)); [|eapply free_stop; [|exact Fn]; cbn; tauto|reflexivity].
      change (negb (str_eqb (c :: n) []) && starts_with (bs ">") (x3e :: show ts)) with true.
      cbn iota. cbn [skipn]. rewrite IH; [reflexivity|].
      rewrite !app_length in L. change (length (bs "</")) with 2 in L. lia.
    + rewrite <- !app_assoc. change (bs "<!--" ++ ?l) with (x3c :: x21 :: x2d :: x2d :: l).
      cbn [scan_go].
      set (l := s ++ bs "-->" ++ show ts).
      change (starts_with (bs "</") (x3c :: x21 :: x2d :: x2d :: l)) with false.
      change (starts_with (bs "<!--") (x3c :: x21 :: x2d :: x2d :: l)) with true.
      cbn iota. cbn [skipn]. unfold l. rewrite scan_comment_show by exact T.
      rewrite IH; [reflexivity|].
      rewrite !app_length in L. change (length (bs "<!--")) with 4 in L. lia.
Qed.

Lemma scan_show ts : Forall tok_ok ts -> scan (show ts) = Some (norm ts).
Proof.
  intro F. rewrite <- show_norm. unfold scan. apply scan_go_show; [now apply tok_ok_norm | apply normal_norm | lia].
Qed.
