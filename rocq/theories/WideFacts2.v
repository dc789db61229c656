(** Facts about wide config files, wide stored values and wide command line splitting. *)

From Coq Require Import List Ascii String NArith ZArith Bool Arith Lia.
From Verif Require Import Base Errors Spec BaseFacts Values OptDesc Positional Cmdline SpecCmdline Parsers ConfigFile Winmain SpecSplit SplitFacts
  SpecConfig ConfigFacts Convert SpecConvert ConvertFacts Wide SpecWide WideFacts.
Import ListNotations.

(** ** A wide config file *)

Lemma getline_high e : Forall (fun x => 128 <= N_of_ascii x)%N e -> forall cur s,
  getline_aux c_nl cur (e ++ s) = getline_aux c_nl (rev e ++ cur) s.
Proof.
  induction 1 as [|x e Hx _ IH]; intros cur s; auto. cbn [app getline_aux rev].
  destruct (char_eqb x c_nl) eqn:E; [apply char_eqb_eq in E; subst; destruct Hx; reflexivity|].
  rewrite IH. now rewrite <- app_assoc.
Qed.

Lemma utf8_text_nil ws s : utf8_text ws s -> (ws = [] <-> s = []).
Proof.
  intros H. destruct H as [|w c ws s Hw _]; [tauto|]. split; [discriminate|]. intros E. apply app_eq_nil in E. destruct E as [-> _].
  inversion Hw.
Qed.

Lemma wide_lines ws s : utf8_text ws s -> forall wcur cur, utf8_text (rev wcur) (rev cur) ->
  Forall2 utf8_text (wgetline_aux wcur ws) (getline_aux c_nl cur s).
Proof.
  induction 1 as [|w c ws s Hw _ IH]; intros wcur cur Hc.
  - cbn. pose proof (utf8_text_nil _ _ Hc) as Hn. destruct wcur as [|x wcur], cur as [|y cur]; auto.
    + destruct Hn as [Hn _]. specialize (Hn eq_refl). cbn in Hn. apply app_eq_nil in Hn. destruct Hn. discriminate.
    + destruct Hn as [_ Hn]. specialize (Hn eq_refl). cbn in Hn. apply app_eq_nil in Hn. destruct Hn. discriminate.
  - cbn [wgetline_aux]. pose proof Hw as Hu. apply utf8_bytes in Hu. destruct Hu as [(x & -> & Ew & Hlt)|[Hh Hge]].
    + cbn [app getline_aux]. destruct (char_eqb x c_nl) eqn:E.
      * apply char_eqb_eq in E. subst x. rewrite <- Ew. cbn. constructor; auto. apply IH. constructor.
      * destruct (N.eqb_spec w (N_of_ascii c_nl)) as [Ex|Ex].
        { exfalso. rewrite Ex in Ew. apply (f_equal ascii_of_N) in Ew. rewrite !ascii_N_embedding in Ew. subst x.
          rewrite char_eqb_refl in E. discriminate. }
        apply IH. cbn [rev]. apply utf8_text_app; auto. rewrite <- Ew. apply utf8_text_char. now rewrite Ew.
    + rewrite getline_high by auto. destruct (N.eqb_spec w (N_of_ascii c_nl)) as [->|Ex]; [destruct Hge; reflexivity|].
      apply IH. cbn [rev]. rewrite rev_app_distr, rev_involutive. apply utf8_text_app; auto.
      rewrite <- (app_nil_r c). constructor; auto. constructor.
Qed.

Lemma U_drop_end a b : Forall (fun c => N_of_ascii c < 128)%N b -> U (a ++ b) -> U a.
Proof. intros H. destruct H as [|c b Hc _]; [now rewrite app_nil_r|]. intros HU. now destruct (U_split _ _ _ HU Hc). Qed.

Lemma blank_ascii b : blank b -> Forall (fun c => N_of_ascii c < 128)%N b.
Proof. intros H. eapply Forall_impl; [|exact H]. intros c [->|[->|[->| ->]]]; reflexivity. Qed.

Lemma U_trim s : U s -> U (trim_ws s).
Proof.
  destruct (trim_exists s) as (b1 & t & b2 & -> & H1 & H2 & Ht). rewrite trim_middle by auto. intros H.
  apply U_drop in H; [|now apply blank_ascii]. apply U_drop_end in H; [auto|now apply blank_ascii].
Qed.

Lemma U_find c s n : (N_of_ascii c < 128)%N -> U s -> find_char c s = Some n -> U (substr_n s 0 n) /\ U (substr s (n + 1)).
Proof.
  intros Hc HU E. apply find_char_Some in E. destruct E as (a & b & -> & Hw & E). subst n.
  apply U_split in HU; auto. destruct HU as [Ha Hb]. unfold substr_n, substr. cbn [skipn].
  rewrite firstn_app_exact. rewrite Nat.add_comm. cbn [Nat.add]. split; auto.
  replace (a ++ c :: b) with ((a ++ [c]) ++ b) by now rewrite <- app_assoc.
  replace (S (List.length a)) with (List.length (a ++ [c])) by (rewrite app_length; cbn; lia). now rewrite skipn_app_exact.
Qed.

Lemma U_strip s : U s -> U (strip_line s).
Proof.
  intros H. unfold strip_line. apply U_trim. destruct (find_char c_hash s) as [n|] eqn:E; auto.
  now destruct (U_find c_hash s n eq_refl H E).
Qed.

Lemma U_section s p : U s -> is_section s = true -> section_prefix s = Ok p -> U p.
Proof.
  intros HU Hs Hp. assert (Hne : s <> []) by (intros ->; discriminate).
  apply is_section_spec in Hs; auto. destruct Hs as [t ->].
  assert (Ht : U t).
  { cbn [app] in HU. apply U_cons in HU; [|reflexivity]. now destruct (U_split t c_rbr [] HU eq_refl). }
  assert (E : substr_n ([c_lbr] ++ t ++ [c_rbr]) 1 (List.length ([c_lbr] ++ t ++ [c_rbr]) - 2) = t).
  { unfold substr_n. cbn [app skipn]. replace (List.length (c_lbr :: t ++ [c_rbr]) - 2) with (List.length t).
    - apply firstn_app_exact.
    - cbn [List.length]. rewrite app_length. cbn. lia. }
  unfold section_prefix in Hp. rewrite E in Hp. apply bind_Ok in Hp. destruct Hp as (l & _ & [= <-]).
  destruct (char_eqb l c_dot); auto. apply U_app; auto. now apply U_char.
Qed.

Lemma get_valid al pr allow : forall lines sec o st,
  Forall U lines -> U sec -> cf_get al pr allow sec lines = Ok (o, st) ->
  U (cf_prefix st) /\ Forall U (cf_lines st)
  /\ match o with Some o => Forall U (po_value o) /\ Forall U (po_orig o) | None => True end.
Proof.
  induction lines as [|l lines IH]; intros sec o st Hl Hs H; cbn [cf_get] in H; cbv zeta in H.
  - injection H as <- <-. auto.
  - inversion Hl as [|? ? H1 H2]. subst. apply U_strip in H1. remember (strip_line l) as s.
    destruct (is_empty s); [exact (IH _ _ _ H2 Hs H)|].
    destruct (is_section s) eqn:Eb.
    + apply bind_Ok in H. destruct H as (p & Hp & H). exact (IH _ _ _ H2 (U_section _ _ H1 Eb Hp) H).
    + destruct (find_char c_eq s) as [n|] eqn:Ef; [|discriminate].
      destruct (U_find c_eq s n eq_refl H1 Ef) as [Ha Hb].
      destruct (negb _ && negb _); [discriminate|]. injection H as <- <-. cbn [cf_prefix cf_lines po_value po_orig].
      assert (Hn : U (sec ++ trim_ws (substr_n s 0 n))) by (apply U_app; auto using U_trim).
      assert (Hv : U (trim_ws (substr s (n + 1)))) by now apply U_trim.
      repeat split; auto.
Qed.

Lemma copy_valid al pr allow : forall fuel st os,
  Forall U (cf_lines st) -> U (cf_prefix st) -> cf_copy fuel al pr allow st = Ok os ->
  Forall U (values_in_order os) /\ Forall U (tokens_of os).
Proof.
  induction fuel as [|fuel IH]; intros st os Hl Hp H; [discriminate|]. cbn [cf_copy] in H.
  apply bind_Ok in H. destruct H as ((o & st') & H1 & H). apply get_valid in H1; auto. destruct H1 as (Hp' & Hl' & Ho).
  destruct o as [o|]; [|injection H as <-; split; constructor].
  apply bind_Ok in H. destruct H as (rest & H & [= <-]). apply IH in H; auto. destruct H as [Hv Ht], Ho as [Ho1 Ho2].
  unfold values_in_order, tokens_of. cbn. split; apply Forall_app; auto.
Qed.

Lemma wide_config_lemma wcontent content ds allow :
  utf8_text wcontent content ->
  (exists p ws, parse_config_file content ds allow = Ok p /\ wparse_config_file wcontent ds allow = Ok (mk_wparsed ws p)
     /\ Forall2 wide_of ws (pr_options p))
  \/ (exists e, parse_config_file content ds allow = Throw e /\ wparse_config_file wcontent ds allow = Throw e)
  \/ (exists u, parse_config_file content ds allow = Undef u /\ wparse_config_file wcontent ds allow = Undef u)
  \/ (parse_config_file content ds allow = NoFuel /\ wparse_config_file wcontent ds allow = NoFuel).
Proof.
  intros H. pose proof (wide_lines _ _ H [] [] ut_nil) as HL. fold (wgetline_all wcontent) in HL. fold (getline_all c_nl content) in HL.
  unfold wparse_config_file, parse_config_file.
  assert (E : mapM to_utf8 (wgetline_all wcontent) = Ok (getline_all c_nl content)).
  { clear -HL. induction HL as [|w s ws ss Hw _ IH]; cbn [mapM]; auto. now rewrite (to_utf8_text _ _ Hw), IH. }
  rewrite E. cbn [bind]. destruct (cf_allowed ds []) as [al|e|u|]; cbn [bind]; eauto 6.
  destruct (cf_add_options [] al) as [pr|e|u|]; cbn [bind]; eauto 6.
  destruct (cf_copy _ _ _ _ _) as [os|e|u|] eqn:Ec; cbn [bind]; eauto 6.
  left. apply copy_valid in Ec; [|exact (encode_U _ _ HL)|exact U_nil]. destruct Ec as [Hv Ht].
  destruct (widen_options _ Hv Ht) as (ws & Ew & Hw). eexists _, ws. split; [reflexivity|]. unfold wparsed. cbn [pr_options].
  rewrite Ew. split; auto.
Qed.

(** ** Wide Windows command lines *)

Lemma isspace_high x : (128 <= N_of_ascii x)%N -> isspace x = false.
Proof. intros H. unfold isspace. destruct (N.leb_spec (N_of_ascii x) 13), (N.eqb_spec (N_of_ascii x) 32); lia. Qed.

Lemma w_char_high x st : (128 <= N_of_ascii x)%N ->
  w_char x st = mk_w (w_result st) ((w_current st ++ repeat c_bs (w_bs st)) ++ [x]) (w_inside st) (w_empty_quote st) 0 false.
Proof.
  intros H. unfold w_char. rewrite isspace_high by auto.
  destruct (char_eqb x c_dq) eqn:E1; [apply char_eqb_eq in E1; subst; destruct H; reflexivity|].
  destruct (char_eqb x c_bs) eqn:E2; [apply char_eqb_eq in E2; subst; destruct H; reflexivity|]. reflexivity.
Qed.

Lemma w_loop_high e : Forall (fun x => 128 <= N_of_ascii x)%N e -> forall st s, e <> [] ->
  w_loop (e ++ s) st
  = w_loop s (mk_w (w_result st) ((w_current st ++ repeat c_bs (w_bs st)) ++ e) (w_inside st) (w_empty_quote st) 0 false).
Proof.
  induction 1 as [|x e Hx He IH]; intros st s Hne; [now destruct Hne|]. cbn [app w_loop].
  rewrite isspace_high, andb_false_r, w_char_high by auto. destruct e as [|y e]; [reflexivity|].
  rewrite IH by discriminate. cbn [w_result w_current w_bs w_inside w_empty_quote repeat]. rewrite app_nil_r, <- app_assoc. reflexivity.
Qed.

Lemma U_bs n : U (repeat c_bs n).
Proof. induction n; cbn; [exact U_nil|]. apply (U_app [c_bs]); auto. now apply U_char. Qed.

Lemma w_loop_valid ws s : utf8_text ws s -> forall st, Forall U (w_result st) -> U (w_current st) ->
  Forall U (w_result (w_loop s st)) /\ U (w_current (w_loop s st)).
Proof.
  induction 1 as [|w c ws s Hw _ IH]; intros st H1 H2; [auto|].
  pose proof (U_bs (w_bs st)) as Hb. pose proof (U_bs (Nat.div2 (w_bs st))) as Hb2.
  pose proof Hw as Hu. apply utf8_bytes in Hu. destruct Hu as [(x & -> & <- & Hlt)|[Hh Hge]].
  - cbn [app w_loop]. destruct (w_skip st && isspace x); [now apply IH|].
    assert (Hc : U [x]) by now apply U_char.
    assert (Hq : U [c_dq]) by now apply U_char.
    unfold w_char. destruct (char_eqb x c_dq); [destruct (Nat.even (w_bs st))|destruct (char_eqb x c_bs); [|destruct (isspace x && negb (w_inside st))]];
      apply IH; cbn [w_result w_current]; auto using U_app, U_nil. apply Forall_app. auto using U_app.
  - rewrite w_loop_high; auto.
    + apply IH; cbn [w_result w_current]; auto. apply U_app; [auto using U_app|]. exists [w].
      rewrite <- (app_nil_r c). constructor; auto. constructor.
    + intros ->. inversion Hw.
Qed.

Lemma skip_space_valid ws s : utf8_text ws s -> U (skip_space s).
Proof.
  induction 1 as [|w c ws s Hw Hs IH]; [exact U_nil|].
  pose proof Hw as Hu. apply utf8_bytes in Hu. destruct Hu as [(x & -> & <- & Hlt)|[Hh Hge]].
  - cbn [app skip_space]. destruct (isspace x); auto. exists (N_of_ascii x :: ws). change (x :: s) with ([x] ++ s). now constructor.
  - destruct c as [|x c]; [inversion Hw|]. cbn [app skip_space]. rewrite isspace_high by now inversion Hh.
    exists (w :: ws). change (x :: c ++ s) with ((x :: c) ++ s). now constructor.
Qed.

Lemma winmain_valid s : U s -> Forall U (split_winmain s).
Proof.
  intros [ws H]. apply skip_space_valid in H. unfold split_winmain. destruct (skip_space s) as [|y i]; [constructor|].
  destruct H as [ws' H]. destruct (w_loop_valid _ _ H (mk_w [] [] false false 0 false) (Forall_nil _) U_nil) as [H1 H2].
  unfold w_finish. set (st := w_loop _ _) in *. destruct (_ || _ || _); auto. apply Forall_app. auto using U_app, U_bs.
Qed.

Lemma wide_winmain_lemma wtext text : utf8_text wtext text ->
  exists wargs, wsplit_winmain wtext = Ok wargs /\ Forall2 utf8_text wargs (split_winmain text).
Proof.
  intros H. unfold wsplit_winmain. rewrite (to_utf8_text _ _ H). cbn [bind].
  destruct (decode_all (split_winmain text)) as (wargs & E & F); eauto. apply winmain_valid. red. eauto.
Qed.
