(** When outputs are not in the cache directory. *)
From Verif Require Import Base ModelPath ModelCli SpecPath SpecCli ProofBase ProofPath.
Local Open Scope nat_scope.

Lemma ext_classify s : classify (s ++ bs "." ++ bs "html") = CNorm (s ++ bs "." ++ bs "html").
Proof.
  apply classify_name; intro K; apply (f_equal (@length _)) in K; rewrite !app_length in K; cbn in K; lia.
Qed.

Lemma html_ext p n : with_extension (CRoot :: map CNorm (p ++ [n])) (bs "html") =
  CRoot :: map CNorm (p ++ [fst (rsplit_dot n) ++ bs "." ++ bs "html"]).
Proof.
  rewrite !map_app. cbn [map]. change (CRoot :: map CNorm p ++ [CNorm n]) with ((CRoot :: map CNorm p) ++ [CNorm n]).
  unfold with_extension, file_stem, file_name. rewrite rev_app_distr. cbn [rev app option_map].
  change (CRoot :: map CNorm p ++ [CNorm n]) with ((CRoot :: map CNorm p) ++ [CNorm n]).
  rewrite removelast_last.
  match goal with |- clean (_ ++ [classify ?x]) = _ =>
    change x with (fst (rsplit_dot n) ++ bs "." ++ bs "html") end.
  rewrite ext_classify. apply clean_app; [discriminate| apply norm_no_cur|]. intros [K|[]]. discriminate.
Qed.

Lemma split_norm wp names rel : CRoot :: map CNorm names = at_root wp ++ rel -> exists r, rel = map CNorm r.
Proof.
  unfold at_root. cbn. intro H. injection H as H. revert names H.
  induction wp as [|x wp IH]; intros [|y names] H; cbn in H; try discriminate; eauto.
  - exists []. auto.
  - exists (y :: names). auto.
  - injection H as _ H. eauto.
Qed.

Lemma rel_norm w wp p : w_path w = at_root wp -> absolute p ->
  exists r, input_rel w p (map CNorm r).
Proof.
  intros Hp [names ->]. unfold input_rel.
  destruct (path_starts_with (CRoot :: map CNorm names) (w_path w)) eqn:E.
  - apply starts_with_iff in E as [rel E]. rewrite Hp in E.
    destruct (split_norm wp names rel E) as [r ->]. exists r. left. now rewrite Hp.
  - exists names. right. left. split.
    + intro K. apply starts_with_iff in K. congruence.
    + change (CRoot :: map CNorm names) with ([CRoot] ++ map CNorm names). unfold make_path_relative.
      rewrite filter_app. cbn [filter is_root negb app]. rewrite forallb_filter_id.
      * now rewrite drop_cur_clean, norm_drop.
      * apply forallb_forall. intros c Hc. apply in_map_iff in Hc as (n & <- & _). reflexivity.
Qed.

(** The outputs of a wiki are outside the cache directory when neither of its
    output directory and the cache directory is below the other, and the file
    beside the output directory, which the directory of the wiki itself would
    be written to, is not below the cache directory. *)
Lemma outputs_outside_intro cache w wp hp h :
  w_path w = at_root wp -> w_html w = at_root (hp ++ [h]) -> absolute cache ->
  apart cache (w_html w) -> ~ SpecCli.below cache (with_extension (w_html w) (bs "html")) ->
  outputs_outside cache w.
Proof.
  intros Hp Hh [cn ->] [Ap1 Ap2] Hx.
  assert (Q : forall r, ~ SpecCli.below (CRoot :: map CNorm cn) (w_html w ++ r)).
  { intros r [s E]. symmetry in E. apply app_eq_app in E as (m & [[E1 E2]|[E1 E2]]).
    - apply Ap2. exists m. auto.
    - apply Ap1. exists m. auto. }
  assert (N : forall r, w_html w ++ map CNorm r = CRoot :: map CNorm ((hp ++ [h]) ++ r)).
  { intro r. rewrite Hh. unfold at_root. now rewrite (map_app _ (hp ++ [h]) r). }
  split; [|split].
  - intros p out A E. destruct (rel_norm w wp p Hp A) as [r R].
    rewrite (make_output_rel w wp (hp ++ [h]) p (map CNorm r) _ Hp Hh R) in E; [|apply norm_no_root|apply norm_no_cur].
    match type of E with Some ?x = _ => assert (Eo : out = x) by congruence end. clear E. subst out. rewrite <- Hh, N. destruct (rev r) as [|z r'] eqn:Er.
    + assert (r = []) by (now rewrite <- (rev_involutive r), Er). subst r. rewrite app_nil_r, html_ext. split; [now eexists|].
      rewrite <- html_ext. change (CRoot :: map CNorm (hp ++ [h])) with (at_root (hp ++ [h])). now rewrite <- Hh.
    + assert (r = rev r' ++ [z]) by (now rewrite <- (rev_involutive r), Er). subst r.
      rewrite app_assoc, html_ext. split; [now eexists|]. rewrite <- app_assoc, <- N. apply Q.
  - rewrite Hh, root_join, <- Hh; [|intros [K|[]]; discriminate]. cbn [drop_cur filter is_cur negb].
    exists ((hp ++ [h]) ++ [bs "style.css"]). rewrite <- N. reflexivity.
  - rewrite Hh, root_join, <- Hh; [|intros [K|[]]; discriminate]. apply Q.
Qed.

Lemma default_outside cache names : absolute cache ->
  let w := default_wiki (CRoot :: map CNorm names) in
  apart cache (w_html w) -> ~ SpecCli.below cache (with_extension (w_html w) (bs "html")) ->
  outputs_outside cache w.
Proof.
  intros A w. apply outputs_outside_intro with (wp := names ++ [bs "vimwiki"]) (hp := names) (h := bs "vimwiki_html"); auto.
  - unfold w. cbn [w_path default_wiki]. fold (at_root names). rewrite root_join; [|intros [K|[]]; discriminate].
    unfold at_root. now rewrite map_app.
  - unfold w. cbn [w_html default_wiki]. fold (at_root names). rewrite root_join; [|intros [K|[]]; discriminate].
    unfold at_root. now rewrite map_app.
Qed.
