(** Contracts of the link parsers. *)
From Verif Require Import Base ModelSpan ModelComb ModelAst ModelLink ModelInline
  SpecDoc ProofBase ProofBytes ProofContract ProofPrim ProofInline.

Section LinkProofs.
Context {EV : env}.
Local Notation inner := (e_inner EV).
Local Notation bd := (e_bd EV).
Local Notation pan := (e_pan EV).
Local Notation uri_parse := (e_uri EV).
Local Notation date_parse := (e_date EV).
Local Notation iok := (inline_ok uri_parse date_parse inner bd).
Local Notation ldok := (ld_ok uri_parse).
Local Notation dok := (desc_ok uri_parse).

(** * Raw links *)

Lemma is_raw_scheme_spec u : is_raw_scheme u = true -> raw_scheme u.
Proof.
  unfold is_raw_scheme, raw_scheme. destruct (u_scheme u) as [s|]; [|discriminate].
  intro H. apply existsb_exists in H as [x [H1 H2]]. apply str_eqb_eq in H2. subst x.
  exists s. split; auto.
Qed.

(** What a raw link is made of. *)
Definition rawq (s s' : span) (x : located link) : Prop :=
  l_reg x = reg s s' /\ sp_start s < sp_start s' /\
  sp_start s' = sp_start s + word_len (remaining s) /\ edge s' /\
  exists u, l_val x = LRaw (LinkData u None None) /\ is_raw_scheme u = true /\
    uri_parse (txt s s') = Some u /\ Forall (fun b => is_space b = false /\ is_nl b = false) (txt s s').

Lemma G_raw_link n : G n (raw_link uri_parse) rawq.
Proof.
  unfold raw_link. eapply G_weaken.
  - apply (G_located_p n _ (fun s s' l => sp_start s < sp_start s' /\
      sp_start s' = sp_start s + word_len (remaining s) /\ edge s' /\
      exists u, l = LRaw (LinkData u None None) /\ is_raw_scheme u = true /\
        uri_parse (txt s s') = Some u /\
        Forall (fun b => is_space b = false /\ is_nl b = false) (txt s s'))).
    intros s Hs Hn. unfold uri_ref.
    gbind (G_verify n _ _ _ (G_map_opt n _ _ _ (G_nonspace1 n))) as s1 u H1 Hs1 Hn1 [HQ Hr].
    rok. destruct HQ as (o & (-> & Hlt & Hw & Hf & He) & Hu). split; auto. split; auto. split; auto.
    exists u. auto.
  - intros s s' x Hs Ha [H1 [H2 H3]]. split; auto.
Qed.

Lemma rawq_link s s' x : rawq s s' x -> LQ ILink s s' x.
Proof.
  intros (H1 & H2 & _ & He & u & H3 & H4 & H5 & H6). split; auto. split; auto. rewrite H3. cbn.
  repeat split; auto using is_raw_scheme_spec.
Qed.

(** * Pieces of bracketed links *)

Lemma G_link_uri_ref n :
  G n (link_uri_ref uri_parse) (fun s s' u =>
    no_nl (remaining s) ->
    uri_text (txt s s') (remaining s') /\ uri_from uri_parse (txt s s') u).
Proof.
  intros s Hs Hn. unfold link_uri_ref.
  gbind (G_take_line_until_three1 n (bs "|") (bs "]]") (bs "}}")) as s1 o H1 Hs1 Hn1 HQ;
    try discriminate; try reflexivity.
  destruct HQ as (-> & [Hnl Hst] & Hlt). rewrite remaining_cov by auto.
  assert (Htext : no_nl (remaining s) -> uri_text (txt s s1) (remaining s1)).
  { intro Hno. split; [|split; [|split; [|split]]].
    - intro Hc. pose proof (txt_length s s1 Hs H1) as Hl. rewrite Hc in Hl. cbn in Hl. lia.
    - eapply line_stop_no_char; eauto. now left.
    - eapply line_stop_absent; eauto; [right; now left | discriminate].
    - eapply line_stop_absent; eauto; [right; right; now left | discriminate].
    - destruct (line_stop_next _ _ _ Hs H1 Hst) as [H|[H|[pat [Hi H]]]]; auto.
      + exfalso. apply at_eol_nl in H. apply Hno. rewrite (remaining_split s s1) by auto.
        apply in_or_app. now right.
      + destruct Hi as [<-|[<-|[<-|[]]]]; auto. }
  destruct (uri_parse (txt s s1)) as [u|] eqn:E1.
  - rok. intro Hno. split; auto. now left.
  - destruct (uri_parse (encode_uri (txt s s1))) as [u|] eqn:E2; [|exact I].
    rok. intro Hno. split; auto. right. auto.
Qed.

Lemma G_link_anchor n :
  G n link_anchor (fun s s' a => anchor_from_fragment (txt s s') = Some a).
Proof.
  unfold link_anchor. eapply G_weaken.
  - apply G_map_opt, (G_take_line_until n (bs "|")); [discriminate | cbn; lia | reflexivity].
  - cbv beta. intros s s' a Hs Ha (o & (-> & _) & H). exact H.
Qed.

Lemma G_link_properties n : G n link_properties (fun s s' _ => True).
Proof.
  intros s Hs Hn. unfold link_properties.
  gbind (G_tag n (bs "|")) as s1 o H1 Hs1 Hn1 _; [asc_lit|].
  eapply (G_pmap n _ _ _ (fun _ _ _ => True)); auto.
  eapply G_separated_list1; [apply G_space1|].
  eapply G_separated_pair.
  - eapply G_cow_cov, G_take_line_until1; [discriminate | cbn; lia | reflexivity].
  - apply G_tag. asc_lit.
  - eapply G_cow.
    + eapply G_delimited; [apply G_tag; asc_lit | | apply G_tag; asc_lit].
      apply G_take_line_until; [discriminate | cbn; lia | reflexivity].
    + cbv beta. intros a b o' Ha Hab (x & y & u & v & K1 & K2 & K3 & _ & [-> _] & _).
      apply cov_sok; eauto using adv_sok.
Qed.

(** What a transclusion parser must deliver. *)
Definition transq (s s' : span) (x : located link) : Prop :=
  l_reg x = reg s s' /\ sp_start s < sp_start s' /\ edge s' /\
  exists d body, l_val x = LTransclusion d /\
    surrounded_by inner (bs "{{") (bs "}}") (sp_start s) (sp_start s') body /\ ldok body d.

Definition descq (s s' : span) (x : description) : Prop :=
  exists dt, txt s s' = bs "|" ++ dt /\ ~ In x7c dt /\ dok dt x.

Lemma G_link_description n tr :
  G n tr transq -> G n (link_description_ tr) descq.
Proof.
  intros Htr s Hs Hn. unfold link_description_.
  gbind (G_tag n (bs "|")) as s1 o H1 Hs1 Hn1 [Ht _]; [asc_lit|].
  eapply R_weaken.
  - eapply (G_map_parser n _ _ _ (fun s s' x => ~ In x7c (txt s s') /\ dok (txt s s') x)); auto.
    + apply (G_take_line_until n (bs "|")); [discriminate | cbn; lia | reflexivity].
    + cbv beta. intros a b o' Ha Hna Hab (-> & Hnl & Hst). split; [now apply cov_sok|].
      pose proof (cov_sok a b Ha Hab) as Hc. pose proof (cov_rl a b Ha Hab) as Hrl.
      assert (Hbar : ~ In x7c (txt a b)) by (eapply line_stop_no_char; eauto; now left).
      eapply R_weaken; [apply (G_palt n _ _ (fun o _ x => dok (remaining o) x)); auto; try lia|].
      * eapply G_pmap; [exact Htr|].
        cbv beta. intros p q l Hp Hpq (_ & _ & _ & d & body & E & Hsb & Hld).
        rewrite E. cbn [link_get_data desc_ok].
        destruct Hsb as (K1 & K2 & _). exists body, (remaining q). split; auto.
        rewrite (remaining_split p q) by auto. unfold txt. rewrite K1.
        now rewrite <- !app_assoc.
      * eapply G_pmap; [apply G_rest|]. cbv beta. intros p q l Hp Hpq [-> _]. reflexivity.
      * cbv beta. intros q x _ Hx. split; auto.
  - cbv beta. intros s2 x H2 [K1 K2]. exists (txt s1 s2). split; auto.
    rewrite (txt_app s s1 s2), Ht by auto. reflexivity.
Qed.

Lemma G_link_data n tr :
  G n tr transq ->
  G n (link_data_ uri_parse tr) (fun s s' d => no_nl (remaining s) -> ldok (remaining s) d).
Proof.
  intros Htr s Hs Hn. unfold link_data_.
  gbind (G_link_uri_ref n) as s1 u H1 Hs1 Hn1 Hu.
  gbind (G_opt n _ _ (G_link_description n tr Htr)) as s2 d H2 Hs2 Hn2 Hd.
  gbind (G_opt n _ _ (G_link_properties n)) as s3 p H3 Hs3 Hn3 _.
  rok. intro Hno. destruct (Hu Hno) as [K1 K2]. cbn [ld_ok].
  exists (txt s s1), (remaining s1). split; [now apply remaining_split|].
  split; auto. split; auto.
  destruct d as [x|]; auto. destruct Hd as (dt & D1 & D2 & D3).
  exists dt, (remaining s2). rewrite (remaining_split s1 s2), D1 by auto.
  rewrite <- app_assoc. auto.
Qed.

Lemma surr_no_nl L R s s' o : surr L R s s' o -> no_nl (remaining o).
Proof. intros ((_ & _ & H & _) & _). exact H. Qed.

Lemma G_transclusion_link f : G f (transclusion_link uri_parse f) transq.
Proof.
  induction f as [|f IH]; intros s Hs Hn; [lia|]. cbn [transclusion_link].
  revert s Hs Hn.
  apply (G_weaken (S f) _ (fun s s' x => l_reg x = reg s s' /\ (sp_start s < sp_start s' /\ edge s' /\
    exists d body, l_val x = LTransclusion d /\
    surrounded_by inner (bs "{{") (bs "}}") (sp_start s) (sp_start s') body /\ ldok body d))).
  2: { intros s s' x _ _ [H1 [H2 H3]]. split; auto. }
  apply (G_located_p (S f) _ (fun s s' v => sp_start s < sp_start s' /\ edge s' /\
    exists d body, v = LTransclusion d /\
    surrounded_by inner (bs "{{") (bs "}}") (sp_start s) (sp_start s') body /\ ldok body d)).
  eapply G_map_parser; [apply (G_surround (S f) (bs "{{") (bs "}}")); [asc_lit|asc_lit|discriminate]|].
  intros s s1 o Hs Hn Ha Hsurr. split; [apply Hsurr|].
  pose proof (surr_rl (bs "{{") (bs "}}") _ _ _ Hs Ha ltac:(cbn; lia) Hsurr) as Hrl.
  assert (Ho : sok o) by apply Hsurr.
  assert (Hno : remaining_len o < f) by lia.
  gbind (G_link_data f _ IH) as o1 d H1 Ho1 Hno1 Hd. rok. split; [|split].
  - eapply surr_lt; eauto; cbn; lia.
  - apply (surr_edge (bs "{{") (bs "}") x7d s s1 o); auto.
  - exists d, (remaining o). split; auto. split; [apply Hsurr|]. apply Hd.
    eapply surr_no_nl; eauto.
Qed.

Lemma G_p_transclusion n : G n (p_transclusion uri_parse) transq.
Proof.
  intros s Hs Hn. unfold p_transclusion. apply G_transclusion_link; auto.
Qed.

Lemma transq_link s s' x : transq s s' x -> LQ ILink s s' x.
Proof.
  intros (H1 & H2 & He & d & body & H3 & H4 & H5). split; auto. split; auto. rewrite H3.
  split; auto. exists body. auto.
Qed.

(** * Bracketed links *)

Lemma G_bracket n (p : parser link) (P : str -> link -> Prop) :
  (forall s s1 o, sok s -> remaining_len s < n -> adv s s1 -> surr (bs "[[") (bs "]]") s s1 o ->
     R o (p o) (fun _ l => P (remaining o) l)) ->
  (forall lo hi body l, surrounded_by inner (bs "[[") (bs "]]") lo hi body -> P body l ->
     link_ok uri_parse date_parse inner lo hi l) ->
  G n (bracket_link p) (LQ ILink).
Proof.
  intros Hp HP. unfold bracket_link. apply G_LQ.
  eapply G_map_parser; [apply (G_surround n (bs "[[") (bs "]]")); [asc_lit|asc_lit|discriminate]|].
  intros s s1 o Hs Hn Ha Hsurr. split; [apply Hsurr|].
  eapply R_weaken; [eapply Hp; eauto|]. cbv beta. intros o1 l _ Hl. split; [|split].
  - eapply surr_lt; eauto; cbn; lia.
  - cbn. eapply HP; eauto. apply Hsurr.
  - apply (surr_edge (bs "[[") (bs "]") x5d s s1 o); auto.
Qed.

Lemma G_wiki_link n : G n (wiki_link uri_parse) (LQ ILink).
Proof.
  unfold wiki_link.
  apply (G_bracket n _ (fun body l => exists d, l = LWiki d /\ ldok body d)).
  - intros s s1 o Hs Hn Ha Hsurr. assert (Ho : sok o) by apply Hsurr.
    assert (Hno : remaining_len o < n).
    { pose proof (surr_rl (bs "[[") (bs "]]") _ _ _ Hs Ha ltac:(cbn; lia) Hsurr). lia. }
    gbind (G_link_data n _ (G_p_transclusion n)) as o1 d H1 Ho1 Hno1 Hd. rok.
    exists d. split; auto. apply Hd. eapply surr_no_nl; eauto.
  - intros lo hi body l H1 (d & -> & H2). cbn. eauto.
Qed.

Lemma remaining_tag s s1 t : sok s -> adv s s1 -> txt s s1 = t -> remaining s = t ++ remaining s1.
Proof. intros Hs Ha <-. now apply remaining_split. Qed.

Lemma G_indexed_link_index n :
  G n indexed_link_index (fun s s' i => exists num, txt s s' = bs "wiki" ++ num ++ bs ":" /\
     ~ In x3a num /\ parse_u32 num = Some i).
Proof.
  unfold indexed_link_index. eapply G_weaken.
  - eapply G_map_opt, G_delimited; [apply (G_tag n (bs "wiki")); asc_lit | |
                                    apply (G_tag n (bs ":")); asc_lit].
    apply (G_take_line_until1 n (bs ":")); [discriminate | cbn; lia | reflexivity].
  - cbv beta. intros s s' i Hs Ha (o & (s1 & s2 & x & y & H1 & H2 & H3 & [T1 _] & HQ & [T2 _]) & Hi).
    destruct HQ as (-> & [Hnl Hst] & Hlt). rewrite remaining_cov in Hi by eauto using adv_sok.
    exists (txt s1 s2). split; [|split; auto].
    + rewrite (txt_app s s1 s'), (txt_app s1 s2 s'), T1, T2 by eauto using adv_trans. reflexivity.
    + eapply line_stop_no_char; eauto using adv_sok. now left.
Qed.

Lemma G_named_link_name n :
  G n named_link_name (fun s s' name => txt s s' = bs "wn." ++ name ++ bs ":" /\
     ~ In x3a name /\ name <> []).
Proof.
  unfold named_link_name. eapply G_weaken.
  - eapply G_cow.
    + eapply G_delimited; [apply (G_tag n (bs "wn.")); asc_lit | |
                           apply (G_tag n (bs ":")); asc_lit].
      apply (G_take_line_until1 n (bs ":")); [discriminate | cbn; lia | reflexivity].
    + cbv beta. intros a b o' Ha Hab (x & y & u & v & K1 & K2 & K3 & _ & [-> _] & _).
      apply cov_sok; eauto using adv_sok.
  - cbv beta. intros s s' t Hs Ha (o & (s1 & s2 & x & y & H1 & H2 & H3 & [T1 _] & HQ & [T2 _]) & ->).
    destruct HQ as (-> & [Hnl Hst] & Hlt). rewrite remaining_cov by eauto using adv_sok.
    split; [|split].
    + rewrite (txt_app s s1 s'), (txt_app s1 s2 s'), T1, T2 by eauto using adv_trans. reflexivity.
    + eapply line_stop_no_char; eauto using adv_sok. now left.
    + intro Hn. pose proof (txt_length s1 s2 ltac:(eauto using adv_sok) H2) as Hl.
      rewrite Hn in Hl. cbn in Hl. lia.
Qed.

(** URI and optional description after an interwiki prefix. *)
Lemma G_uri_desc n (mk : uri -> option description -> link) :
  G n (fun s => do (s2, u) <- link_uri_ref uri_parse s;;
                do (s3, d) <- opt (link_description uri_parse) s2;; Ok s3 (mk u d))
    (fun s s' l => no_nl (remaining s) ->
       exists u d, l = mk u d /\ ldok (remaining s) (LinkData u d None)).
Proof.
  intros s Hs Hn. gbind (G_link_uri_ref n) as s1 u H1 Hs1 Hn1 Hu.
  gbind (G_opt n _ _ (G_link_description n _ (G_p_transclusion n))) as s2 d H2 Hs2 Hn2 Hd.
  rok. intro Hno. destruct (Hu Hno) as [K1 K2]. exists u, d. split; auto. cbn [ld_ok].
  exists (txt s s1), (remaining s1). split; [now apply remaining_split|].
  split; auto. split; auto.
  destruct d as [x|]; auto. destruct Hd as (dt & D1 & D2 & D3).
  exists dt, (remaining s2). rewrite (remaining_split s1 s2), D1 by auto.
  rewrite <- app_assoc. auto.
Qed.

Lemma G_indexed n : G n (indexed_interwiki_link uri_parse) (LQ ILink).
Proof.
  unfold indexed_interwiki_link.
  apply (G_bracket n _ (fun body l => exists i d num body', l = LIndexed i d /\
     body = bs "wiki" ++ num ++ bs ":" ++ body' /\ ~ In x3a num /\ parse_u32 num = Some i /\
     ldok body' d)).
  - intros s s1 o Hs Hn Ha Hsurr. assert (Ho : sok o) by apply Hsurr.
    assert (Hno : remaining_len o < n).
    { pose proof (surr_rl (bs "[[") (bs "]]") _ _ _ Hs Ha ltac:(cbn; lia) Hsurr). lia. }
    pose proof (surr_no_nl _ _ _ _ _ Hsurr) as Hnl.
    gbind (G_indexed_link_index n) as o1 i H1 Ho1 Hno1 (num & T1 & T2 & T3).
    eapply R_weaken; [apply (G_uri_desc n (fun u d => LIndexed i (LinkData u d None))); auto|].
    cbv beta. intros o2 l H2 HQ. rewrite (remaining_split o o1) in * by auto.
    apply no_nl_app in Hnl as [_ Hnl]. destruct (HQ Hnl) as (u & d & -> & Hld).
    exists i, (LinkData u d None), num, (remaining o1). split; auto. split; auto.
    rewrite T1. now rewrite <- !app_assoc.
  - intros lo hi body l H1 (i & d & num & body' & -> & H2 & H3 & H4 & H5).
    exists body, num, body'. auto 10.
Qed.

Lemma G_named n : G n (named_interwiki_link uri_parse) (LQ ILink).
Proof.
  unfold named_interwiki_link.
  apply (G_bracket n _ (fun body l => exists name d body', l = LNamed name d /\
     body = bs "wn." ++ name ++ bs ":" ++ body' /\ name <> [] /\ ~ In x3a name /\
     ldok body' d)).
  - intros s s1 o Hs Hn Ha Hsurr. assert (Ho : sok o) by apply Hsurr.
    assert (Hno : remaining_len o < n).
    { pose proof (surr_rl (bs "[[") (bs "]]") _ _ _ Hs Ha ltac:(cbn; lia) Hsurr). lia. }
    pose proof (surr_no_nl _ _ _ _ _ Hsurr) as Hnl.
    gbind (G_named_link_name n) as o1 name H1 Ho1 Hno1 (T1 & T2 & T3).
    eapply R_weaken; [apply (G_uri_desc n (fun u d => LNamed name (LinkData u d None))); auto|].
    cbv beta. intros o2 l H2 HQ. rewrite (remaining_split o o1) in * by auto.
    apply no_nl_app in Hnl as [_ Hnl]. destruct (HQ Hnl) as (u & d & -> & Hld).
    exists name, (LinkData u d None), (remaining o1). split; auto. split; auto.
    rewrite T1. now rewrite <- !app_assoc.
  - intros lo hi body l H1 (name & d & body' & -> & H2 & H3 & H4 & H5).
    exists body, body'. auto 10.
Qed.

Lemma G_diary n : G n (diary_link uri_parse date_parse) (LQ ILink).
Proof.
  unfold diary_link.
  apply (G_bracket n _ (fun body l => exists dt d ds rest a, l = LDiary dt d /\
     body = bs "diary:" ++ ds ++ rest /\ ~ In x7c ds /\ ~ In x23 ds /\ date_parse ds = Some dt /\
     (a = [] \/ exists ft rest', rest = ft ++ rest' /\ anchor_from_fragment ft = Some a) /\
     uri_parse (anchor_to_fragment a) = Some (ld_uri d))).
  - intros s s1 o Hs Hn Ha Hsurr. assert (Ho : sok o) by apply Hsurr.
    assert (Hno : remaining_len o < n).
    { pose proof (surr_rl (bs "[[") (bs "]]") _ _ _ Hs Ha ltac:(cbn; lia) Hsurr). lia. }
    gbind (G_tag n (bs "diary:")) as o1 x H1 Ho1 Hno1 [T1 _]; [asc_lit|].
    gbind (G_map_opt n _ _ _ (G_take_line_until_two1 n (bs "|") (bs "#")
             ltac:(discriminate) ltac:(discriminate) eq_refl eq_refl))
      as o2 dt H2 Ho2 Hno2 (c & (-> & [Hnl Hst] & Hlt) & Hdt).
    rewrite remaining_cov in Hdt by auto.
    gbind (G_opt n _ _ (G_link_anchor n)) as o3 a H3 Ho3 Hno3 HQa.
    gbind (G_opt n _ _ (G_link_description n _ (G_p_transclusion n))) as o4 desc H4 Ho4 Hno4 _.
    assert (Hbody : remaining o = bs "diary:" ++ txt o1 o2 ++ remaining o2).
    { rewrite (remaining_tag _ _ _ Ho H1 T1), (remaining_split o1 o2) by auto. reflexivity. }
    unfold new_diary_link. set (frag := match a with Some a => anchor_to_fragment a | None => [] end).
    destruct (uri_parse frag) as [u|] eqn:Eu.
    + rok. exists dt, (LinkData u desc None), (txt o1 o2), (remaining o2),
        (match a with Some a => a | None => [] end). split; auto. split; auto.
      split; [eapply line_stop_no_char; eauto; now left|].
      split; [eapply line_stop_no_char; eauto; right; now left|]. split; auto. split.
      * destruct a as [a|]; [|now left]. right. exists (txt o2 o3), (remaining o3).
        split; [now apply remaining_split | auto].
      * cbn [ld_uri]. unfold frag in Eu. destruct a; auto.
    + unfold R. apply (e_pan_diary EV (sp_start s) (sp_start s1) (remaining o) a).
      * apply Hsurr.
      * apply starts_with_spec. eauto.
      * destruct a as [a|]; [|now left]. right.
        exists (length (bs "diary:" ++ txt o1 o2)),
               (length (bs "diary:" ++ txt o1 o2) + length (txt o2 o3)), a. split; auto.
        rewrite Hbody, (remaining_split o2 o3), app_assoc by auto.
        unfold slice. rewrite skipn_app, skipn_all, Nat.sub_diag. cbn [app skipn].
        replace (length (bs "diary:" ++ txt o1 o2) + length (txt o2 o3)
                 - length (bs "diary:" ++ txt o1 o2)) with (length (txt o2 o3)) by lia.
        rewrite firstn_app, Nat.sub_diag, firstn_all. cbn [firstn]. now rewrite app_nil_r.
      * exact Eu.
  - intros lo hi body l H1 (dt & d & ds & rest & a & -> & H2 & H3 & H4 & H5 & H6 & H7).
    exists body, ds, rest, a. auto 10.
Qed.

Lemma G_p_link n : G n (p_link uri_parse date_parse) (LQ ILink).
Proof.
  unfold p_link. apply G_alt. repeat constructor.
  - apply G_diary.
  - apply G_indexed.
  - apply G_named.
  - apply G_wiki_link.
  - eapply G_weaken; [apply G_raw_link|]. intros s s' x _ _. apply rawq_link.
  - eapply G_weaken; [apply G_p_transclusion|]. intros s s' x _ _. apply transq_link.
Qed.

(** * Keywords *)

Lemma G_p_keyword n : G n p_keyword (LQ IKeyword).
Proof.
  unfold p_keyword. apply G_LQ.
  assert (H : forall k, G n (value k (tag (kw_str k))) (fun s s' a => sp_start s < sp_start s' /\
           iok (sp_depth s) (sp_start s) (sp_start s') (IKeyword a) /\ edge s')).
  { intro k. eapply G_value; [apply (G_tag n (kw_str k)); destruct k; asc_lit|].
    cbv beta. intros s s' o Hs Ha [Ht _]. split; [|split; [exact Ht | eapply edge_kw; eauto]].
    eapply txt_lt; eauto. destruct k; cbn; lia. }
  apply G_alt. repeat constructor.
  - apply (H KDone).
  - apply (H KFixed).
  - apply (H KFixme).
  - apply (H KStarted).
  - apply (H KTodo).
  - apply (H KXxx).
Qed.

End LinkProofs.
