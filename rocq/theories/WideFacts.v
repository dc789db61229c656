(** Facts about the values of a parse, and the wide character interfaces. *)

From Coq Require Import List Ascii String NArith ZArith Bool Arith Lia.
From Verif Require Import Base Errors Spec BaseFacts Values OptDesc SpecLookup LookupFacts Positional Cmdline SpecCmdline
  CmdlineFacts RunFacts Parsers Convert SpecConvert ConvertFacts Wide SpecWide.
Import ListNotations.

(** ** Values of a parse *)

Lemma values_app a b : values_in_order (a ++ b) = values_in_order a ++ values_in_order b.
Proof. unfold values_in_order. now rewrite map_app, concat_app. Qed.

Lemma supplies_app c a b x y : supplies c a x -> supplies c b y -> supplies c (a ++ b) (x ++ y).
Proof. intros H. induction H; intros; cbn [app]; auto; [apply su_none|apply su_whole|apply su_attached]; auto. Qed.

Lemma supplies_all c a : supplies c a a.
Proof. induction a; [constructor|apply su_whole; auto]. Qed.

(** The values of the raw options read from a token. *)
Lemma reads_supply c tok os :
  cl_additional c = None -> reads c tok os ->
  (forall o, In o (removelast os) -> po_value o = [])
  /\ (values_in_order os = [] \/ exists v, v <> [] /\ values_in_order os = [v] /\ attached c tok v).
Proof.
  intros Ha H. destruct H.
  - split; [intros o []|]. now left.
  - split; [intros o []|]. right. exists v. split; auto. split; [reflexivity|]. apply at_long with name; auto.
  - split.
    { rewrite removelast_app by discriminate. cbn [removelast]. rewrite app_nil_r.
      intros o Ho. apply in_map_iff in Ho. destruct Ho as (y & <- & _). reflexivity. }
    rewrite values_app.
    assert (E : values_in_order (map (fun a => raw [c_dash; a] [] []) flags) = []).
    { unfold values_in_order. rewrite map_map. cbn. clear. induction flags; auto. }
    rewrite E. unfold values_in_order. cbn. rewrite app_nil_r. unfold opt_value. destruct adj as [|y adj]; [now left|].
    right. exists (y :: adj). split; [discriminate|]. split; [reflexivity|].
    destruct flags as [|f fl].
    + apply at_short with x; auto.
    + assert (Hne : f :: fl <> []) by discriminate.
      apply at_sticky with (f :: fl) x; auto.
  - split; [intros o []|]. unfold values_in_order, opt_value. cbn. destruct adj as [|y adj]; [now left|].
    right. exists (y :: adj). split; [discriminate|]. split; [reflexivity|]. apply at_slash with x; auto.
  - split; [intros o []|]. now left.
  - split; [intros o []|]. right. exists v. split; auto. split; [reflexivity|].
    apply at_disguised with b name; auto. destruct H3 as [[-> _]|[-> _]]; auto.
  - congruence.
Qed.

Lemma step_supply c tok rest opts args' :
  cl_additional c = None -> step_result c tok rest opts args' ->
  exists used, rest = used ++ args' /\ supplies c (tok :: used) (values_in_order opts)
    \/ (tok = dashdash /\ args' = [] /\ values_in_order opts = rest).
Proof.
  intros Ha [(os & Hr & Hf)|[(-> & -> & ->)|(-> & ->)]].
  - destruct (reads_supply _ _ _ Ha Hr) as [Hrm Hv].
    destruct (reads_last _ _ _ Hr) as (fl & o & -> & _).
    rewrite removelast_app in Hrm by discriminate. cbn [removelast] in Hrm. rewrite app_nil_r in Hrm.
    rewrite values_app in Hv.
    apply finish_all_snoc_ok in Hf. destruct Hf as (fs & f & -> & Hfs & Hf).
    assert (E0 : values_in_order (map (fun a => raw [c_dash; a] [] []) fl) = []).
    { unfold values_in_order. rewrite map_map. cbn. clear. induction fl; auto. }
    assert (E1 : values_in_order fs = []).
    { clear -Hfs. remember (map (fun a : char => raw [c_dash; a] [] []) fl) as os eqn:Eos. revert fl Eos.
      induction Hfs as [|x y l l' Hxy _ IH]; intros fl Eos; [reflexivity|].
      destruct fl as [|a fl]; [discriminate|]. injection Eos as -> ->.
      change (y :: l') with ([y] ++ l'). rewrite values_app. rewrite (IH fl eq_refl), app_nil_r.
      apply finish_option_ok in Hxy.
      destruct Hxy as [(Hk & _)|[(_ & _ & _ & -> & _)|(_ & d & ts & _ & E & -> & _)]].
      - discriminate.
      - reflexivity.
      - symmetry in E. apply app_eq_nil in E. destruct E as [-> _]. reflexivity. }
    rewrite E0 in Hv. cbn [app] in Hv. rewrite values_app, E1. cbn [app].
    assert (Hhead : supplies c [tok] (values_in_order [o])).
    { destruct Hv as [->|(v & Hne & -> & Hat)]; [apply su_none|apply su_attached; auto]; constructor. }
    apply finish_option_ok in Hf.
    destruct Hf as [(_ & -> & ->)|[(_ & _ & _ & -> & ->)|(_ & d & ts & _ & -> & -> & _)]].
    + exists []. left. auto.
    + exists []. left. auto.
    + exists ts. left. split; auto. unfold values_in_order in *. cbn in *. rewrite app_nil_r in *.
      change (tok :: ts) with ([tok] ++ ts). apply supplies_app; auto. apply supplies_all.
  - exists []. right. split; [reflexivity|]. split; auto. unfold values_in_order. rewrite map_map. cbn.
    clear. induction rest; cbn; congruence.
  - exists []. left. split; auto. unfold values_in_order. cbn. apply su_whole. constructor.
Qed.

Lemma steps_supply c args opts :
  cl_additional c = None -> steps c args opts -> supplies c args (values_in_order opts).
Proof.
  intros Ha. induction 1 as [|tok rest opts args' more Hs Hm IH]; [constructor|].
  rewrite values_app. destruct (step_supply _ _ _ _ _ Ha Hs) as (used & [[-> H]|(-> & -> & E)]).
  - rewrite app_comm_cons. now apply supplies_app.
  - replace (values_in_order more) with (@nil str) by now inversion Hm. rewrite E, app_nil_r. apply su_none. apply supplies_all.
Qed.

Lemma merged_values c a b : merged c a b -> values_in_order b = values_in_order a.
Proof.
  induction 1 as [|o os rs _ _ IH|o taken os rs _ _ _ _ _ IH]; auto.
  - unfold values_in_order in *. cbn. now rewrite IH.
  - unfold values_in_order in *. cbn [map List.concat]. rewrite IH, map_app, concat_app. unfold absorb. cbn [po_value].
    now rewrite <- app_assoc.
Qed.

Lemma number_values k rs : values_in_order (number_positionals k rs) = values_in_order rs.
Proof.
  revert k; induction rs as [|o rs IH]; intros k; auto. cbn [number_positionals].
  unfold values_in_order in *. destruct (is_empty (po_key o)); cbn; now rewrite IH.
Qed.

Lemma name_values p k rs rs' : name_positionals p k rs = Ok rs' -> values_in_order rs' = values_in_order rs.
Proof.
  revert k rs'; induction rs as [|o rs IH]; intros k rs' H; cbn [name_positionals] in H.
  - now injection H as <-.
  - destruct (Z.eqb _ _).
    + apply bind_Ok in H. destruct H as (r & H & [= <-]). apply IH in H. unfold values_in_order in *. cbn. now rewrite H.
    + destruct (Z.leb _ _); [discriminate|]. apply bind_Ok in H. destruct H as (n & _ & H).
      apply bind_Ok in H. destruct H as (r & H & [= <-]). apply IH in H. unfold values_in_order in *. cbn. now rewrite H.
Qed.

Lemma passes_values fuel c args res :
  run fuel c args = Ok res -> exists r1, main_loop fuel c args = Ok r1 /\ values_in_order res = values_in_order r1.
Proof.
  intros H. unfold run in H. apply bind_Ok in H. destruct H as (r1 & H1 & H).
  apply bind_Ok in H. destruct H as (r2 & H2 & H). apply bind_Ok in H. destruct H as (r4 & H4 & [= <-]).
  exists r1. split; auto.
  assert (E : values_in_order (map (set_case_flag c) r4) = values_in_order r4).
  { unfold values_in_order. now rewrite map_map. }
  rewrite E. apply merge_ok in H2. apply merged_values in H2. rewrite <- H2, <- (number_values 0 r2).
  destruct (cl_positional c); [now apply name_values in H4|now injection H4 as <-].
Qed.

Lemma supply_lemma c args res :
  plain c -> parse c args = Ok res -> supplies c args (values_in_order res).
Proof.
  intros [Hc Ha] H. apply passes_values in H. destruct H as (r1 & H1 & ->).
  apply main_loop_steps in H1; auto. now apply steps_supply.
Qed.

(** ** UTF-8 *)

Definition U (s : str) : Prop := exists w, utf8_text w s.

Lemma tail_high w k : (128 <= N_of_ascii (SpecConvert.tail w k))%N.
Proof. rewrite tail_N. apply N.le_add_r. Qed.

Lemma utf8_bytes w c : utf8 w c ->
  (exists x, c = [x] /\ N_of_ascii x = w /\ (w < 128)%N) \/ (Forall (fun x => 128 <= N_of_ascii x)%N c /\ (128 <= w)%N).
Proof.
  intros H. destruct H; [left|right..].
  - exists (ascii_of_N w). split; auto. rewrite N_ascii_embedding by lia. split; auto.
  - split; [|cbn in *; lia]. repeat constructor; try apply tail_high. rewrite (lead_N 192 w 1 32); [apply N.le_trans with 192%N; [discriminate|apply N.le_add_r]|cbn in *; lia|discriminate].
  - split; [|cbn in *; lia]. repeat constructor; try apply tail_high. rewrite (lead_N 224 w 2 16); [apply N.le_trans with 224%N; [discriminate|apply N.le_add_r]|cbn in *; lia|discriminate].
  - split; [|cbn in *; lia]. repeat constructor; try apply tail_high. rewrite (lead_N 240 w 3 8); [apply N.le_trans with 240%N; [discriminate|apply N.le_add_r]|cbn in *; lia|discriminate].
  - split; [|cbn in *; lia]. repeat constructor; try apply tail_high. rewrite (lead_N 248 w 4 4); [apply N.le_trans with 248%N; [discriminate|apply N.le_add_r]|cbn in *; lia|discriminate].
  - split; [|cbn in *; lia]. repeat constructor; try apply tail_high. rewrite (lead_N 252 w 5 2); [apply N.le_trans with 252%N; [discriminate|apply N.le_add_r]|cbn in *; lia|discriminate].
Qed.

Lemma utf8_text_app a x b y : utf8_text a x -> utf8_text b y -> utf8_text (a ++ b) (x ++ y).
Proof.
  intros H. induction H as [|w c ws s Hw _ IH]; intros Hb; auto. cbn [app]. rewrite <- app_assoc. constructor; auto.
Qed.

Lemma utf8_text_char c : (N_of_ascii c < 128)%N -> utf8_text [N_of_ascii c] [c].
Proof.
  intros H. change [c] with ([c] ++ []). constructor; [|constructor].
  pose proof (utf8_1 (N_of_ascii c) H) as X. now rewrite ascii_N_embedding in X.
Qed.

Lemma utf8_text_split ws s : utf8_text ws s -> forall a c b, s = a ++ c :: b -> (N_of_ascii c < 128)%N ->
  exists wa wb, ws = wa ++ N_of_ascii c :: wb /\ utf8_text wa a /\ utf8_text wb b.
Proof.
  induction 1 as [|w e ws s Hw Hs IH]; intros a c b E Hc.
  - destruct a; discriminate.
  - assert (Hsplit : (exists a', a = e ++ a' /\ s = a' ++ c :: b) \/ exists e1 e2, e = e1 ++ c :: e2 /\ a = e1 /\ e2 ++ s = b).
    { clear -E. revert a E. induction e as [|x e IHe]; intros a E; cbn [app] in E.
      - left. exists a. auto.
      - destruct a as [|y a]; cbn [app] in E; injection E as -> E.
        + right. exists [], e. auto.
        + destruct (IHe a E) as [(a' & -> & ->)|(e1 & e2 & -> & -> & <-)].
          * left. exists a'. auto.
          * right. exists (y :: e1), e2. auto. }
    destruct Hsplit as [(a' & -> & ->)|(e1 & e2 & -> & -> & <-)].
    + destruct (IH a' c b eq_refl Hc) as (wa & wb & -> & H1 & H2). exists (w :: wa), wb. split; auto. split; auto. now constructor.
    + destruct (utf8_bytes _ _ Hw) as [(x & Ex & <- & _)|[Hh _]].
      * destruct e1 as [|z e1]; [|destruct e1; discriminate]. injection Ex as -> ->. exists [], ws. split; auto. split; auto. constructor.
      * apply Forall_app in Hh. destruct Hh as [_ Hh]. inversion Hh. lia.
Qed.

Lemma utf8_text_fun ws s s' : utf8_text ws s -> utf8_text ws s' -> s = s'.
Proof. intros H H'. apply to_utf8_text in H. apply to_utf8_text in H'. congruence. Qed.
Lemma utf8_text_inj ws ws' s : utf8_text ws s -> utf8_text ws' s -> ws = ws'.
Proof. intros H H'. apply from_utf8_text in H. apply from_utf8_text in H'. congruence. Qed.

Lemma U_app a b : U a -> U b -> U (a ++ b).
Proof. intros [x Hx] [y Hy]. exists (x ++ y). now apply utf8_text_app. Qed.
Lemma U_char c : (N_of_ascii c < 128)%N -> U [c].
Proof. intros H. eexists. now apply utf8_text_char. Qed.
Lemma U_split a c b : U (a ++ c :: b) -> (N_of_ascii c < 128)%N -> U a /\ U b.
Proof. intros [w H] Hc. destruct (utf8_text_split _ _ H _ _ _ eq_refl Hc) as (wa & wb & _ & Ha & Hb). split; eexists; eauto. Qed.
Lemma U_nil : U [].
Proof. exists []. constructor. Qed.
Lemma U_cons c b : U (c :: b) -> (N_of_ascii c < 128)%N -> U b.
Proof. intros H Hc. apply (U_split [] c b); auto. Qed.
Lemma U_ascii s : Forall (fun c => N_of_ascii c < 128)%N s -> U s.
Proof. induction 1 as [|c s Hc _ IH]; [apply U_nil|]. change (c :: s) with ([c] ++ s). apply U_app; auto. now apply U_char. Qed.
Lemma U_drop a b : Forall (fun c => N_of_ascii c < 128)%N a -> U (a ++ b) -> U b.
Proof. induction 1 as [|c a Hc _ IH]; auto. cbn [app]. intros H. apply IH. eapply U_cons; eauto. Qed.

(** ** A wide command line *)

Lemma finish_all_values c ps os : forall args opts args',
  finish_all c ps os args = Ok (opts, args') ->
  (exists used, args = used ++ args' /\ values_in_order opts = values_in_order os ++ used)
  /\ Forall (fun o => po_key o = [] \/ cl_allow_unregistered c = true \/ exists d, lookup c (po_key o) = Ok (Some d)) os.
Proof.
  assert (Hone : forall o args o' args', finish_option c ps o args = Ok (o', args') ->
    (exists used, args = used ++ args' /\ po_value o' = po_value o ++ used)
    /\ (po_key o = [] \/ cl_allow_unregistered c = true \/ exists d, lookup c (po_key o) = Ok (Some d))).
  { intros o args o' args' H. apply finish_option_ok in H.
    destruct H as [(Hk & -> & ->)|[(_ & _ & Hu & -> & ->)|(_ & d & ts & Hl & -> & -> & _)]].
    - split; [exists []; rewrite app_nil_r; auto|]. auto.
    - split; [exists []; rewrite app_nil_r; auto|]. auto.
    - split; [exists ts; auto|]. eauto. }
  induction os as [|o os IH]; intros args opts args' H.
  - cbn [finish_all] in H. injection H as <- <-. split; [exists []; auto|constructor].
  - destruct os as [|o2 os].
    + cbn [finish_all] in H. apply bind_Ok in H. destruct H as ((o' & a) & H & [= <- <-]). apply Hone in H.
      destruct H as [(used & -> & E) Hk]. split; [|constructor; [exact Hk|constructor]].
      exists used. split; auto. unfold values_in_order. cbn. rewrite E, !app_nil_r. reflexivity.
    + rewrite finish_all_cons in H. apply bind_Ok in H. destruct H as ((o' & a) & H & H').
      apply bind_Ok in H'. destruct H' as ((os' & a2) & H' & [= <- <-]). cbn [fst snd].
      apply IH in H'. destruct H' as [(used & -> & E) Hks]. apply Hone in H. destruct H as [(u & Eu & Ev) Hk].
      symmetry in Eu. apply app_eq_nil in Eu. destruct Eu as [-> ->]. rewrite app_nil_r in Ev.
      split; [|constructor; auto]. exists used. split; auto.
      change (o' :: os') with ([o'] ++ os'). change (o :: o2 :: os) with ([o] ++ o2 :: os).
      rewrite !values_app, E, app_assoc. f_equal. f_equal. unfold values_in_order. cbn. now rewrite Ev.
Qed.

Lemma dash_ascii : (N_of_ascii c_dash < 128)%N. Proof. reflexivity. Qed.
Lemma slash_ascii : (N_of_ascii c_slash < 128)%N. Proof. reflexivity. Qed.
Lemma eq_ascii : (N_of_ascii c_eq < 128)%N. Proof. reflexivity. Qed.

Lemma reads_valid c tok os :
  cl_additional c = None -> ascii_shorts c -> reads c tok os -> U tok ->
  Forall (fun o => po_key o = [] \/ cl_allow_unregistered c = true \/ exists d, lookup c (po_key o) = Ok (Some d)) os ->
  Forall U (values_in_order os) /\ Forall U (tokens_of os).
Proof.
  intros Ha Hs H HU HF.
  assert (Hshort : has (cl_style c) allow_short = true -> forall x,
    ([c_dash; x] = [] \/ cl_allow_unregistered c = true \/ exists d, lookup c [c_dash; x] = Ok (Some d)) ->
    (N_of_ascii x < 128)%N).
  { intros E x Hx. destruct Hs as [Hs|[Hu Hs]]; [congruence|]. destruct Hx as [Hx|[Hx|[d Hx]]]; try discriminate; [congruence|].
    destruct (N.lt_ge_cases (N_of_ascii x) 128) as [L|L]; auto. destruct (Hs x L d Hx). }
  pose proof dash_ascii as Kd. pose proof slash_ascii as Ks. pose proof eq_ascii as Ke.
  assert (Hb : forall b name, (b = c_dash /\ hd c_dash name <> c_dash \/ b = c_slash /\ has (cl_style c) allow_slash_for_short = true)
    \/ (b = c_dash /\ hd c_eq name <> c_dash \/ b = c_slash /\ has (cl_style c) allow_slash_for_short = true) -> (N_of_ascii b < 128)%N).
  { intros b name [[[-> _]|[-> _]]|[[-> _]|[-> _]]]; auto. }
  destruct H as [name|name v|flags x adj|x adj|b name d|b name v d|f name v].
  - unfold values_in_order, tokens_of. cbn. auto.
  - unfold values_in_order, tokens_of. cbn. subst tok. split; repeat constructor; auto.
    destruct (U_split (c_dash :: c_dash :: name) c_eq v HU Ke). auto.
  - assert (E : forall f, (forall a, f (raw [c_dash; a] [] []) = @nil str) -> List.concat (map f (map (fun a => raw [c_dash; a] [] []) flags)) = []).
    { intros f Hf. rewrite map_map. clear -Hf. induction flags; cbn; auto. now rewrite Hf. }
    unfold values_in_order, tokens_of. rewrite !map_app, !concat_app, !E by reflexivity. cbn. rewrite app_nil_r.
    split; [|repeat constructor; auto]. unfold opt_value. destruct adj as [|y adj]; [constructor|]. repeat constructor.
    apply Forall_app in HF. destruct HF as [HF1 HF2]. inversion HF2 as [|? ? Hx _]. subst.
    apply (U_drop (c_dash :: flags ++ [x])); [|cbn [app]; now rewrite <- app_assoc].
    constructor; auto. apply Forall_app. split; [|repeat constructor; auto].
    rewrite Forall_map in HF1. eapply Forall_impl; [|exact HF1]. intros a Hx'. cbn beta in *. auto.
  - inversion HF as [|? ? Hx _]. subst. unfold values_in_order, tokens_of. cbn.
    split; [|repeat constructor; auto]. unfold opt_value. destruct adj as [|y adj]; [constructor|]. repeat constructor.
    apply (U_drop [c_slash; x]); auto.
  - subst tok. unfold values_in_order, tokens_of. cbn. split; repeat constructor.
    assert (Hn : U name) by (eapply U_cons; eauto).
    change (c_dash :: c_dash :: name) with ([c_dash] ++ [c_dash] ++ name). apply U_app; [now apply U_char|]. apply U_app; [now apply U_char|exact Hn].
  - subst tok. unfold values_in_order, tokens_of. cbn.
    assert (Hn : U (name ++ c_eq :: v)) by (eapply U_cons; eauto). split; repeat constructor.
    + now destruct (U_split _ _ _ Hn Ke).
    + change (c_dash :: c_dash :: name ++ c_eq :: v) with ([c_dash] ++ [c_dash] ++ name ++ c_eq :: v).
      apply U_app; [now apply U_char|]. apply U_app; [now apply U_char|exact Hn].
  - congruence.
Qed.

Lemma step_valid c tok rest opts args' :
  cl_additional c = None -> ascii_shorts c -> U tok -> Forall U rest -> step_result c tok rest opts args' ->
  Forall U args' /\ Forall U (values_in_order opts) /\ Forall U (tokens_of opts).
Proof.
  intros Ha Hs Ht Hr [(os & Hos & Hf)|[(-> & -> & ->)|(-> & ->)]].
  - pose proof (finish_all_tokens _ _ _ _ _ _ Hf) as Et.
    apply finish_all_values in Hf. destruct Hf as [(used & -> & Ev) HF].
    destruct (reads_valid _ _ _ Ha Hs Hos Ht HF) as [Hv Ho].
    apply Forall_app in Hr. destruct Hr as [Hu Hr]. split; auto.
    rewrite Ev. split; [now apply Forall_app|].
    rewrite app_assoc in Et. apply app_inv_tail in Et. rewrite Et. now apply Forall_app.
  - split; [constructor|]. rewrite tokens_term. split; auto.
    assert (E : values_in_order (map term_opt rest) = rest).
    { unfold values_in_order. rewrite map_map. cbn. clear. induction rest; cbn; congruence. }
    now rewrite E.
  - split; auto. unfold values_in_order, tokens_of. cbn. split; repeat constructor; auto.
Qed.

Lemma steps_valid c args opts :
  cl_additional c = None -> ascii_shorts c -> steps c args opts -> Forall U args ->
  Forall U (values_in_order opts) /\ Forall U (tokens_of opts).
Proof.
  intros Ha Hs. induction 1 as [|tok rest opts args' more Hst _ IH]; intros HU; [split; constructor|].
  inversion HU as [|? ? Ht Hr]. subst. destruct (step_valid _ _ _ _ _ Ha Hs Ht Hr Hst) as (H1 & H2 & H3).
  destruct (IH H1) as [H4 H5]. rewrite values_app, tokens_app. split; now apply Forall_app.
Qed.

Lemma run_valid c fuel args res :
  plain c -> ascii_shorts c -> Forall U args -> run fuel c args = Ok res ->
  Forall U (values_in_order res) /\ Forall U (tokens_of res).
Proof.
  intros [Hc Ha] Hs HU H. destruct (passes_values _ _ _ _ H) as (r1 & H1 & ->).
  destruct (passes_tokens _ _ _ _ H) as (r2 & H2 & ->). rewrite H1 in H2. injection H2 as <-.
  apply main_loop_steps in H1; auto. eapply steps_valid; eauto.
Qed.

Lemma mapM_Forall2 {A B} (f : A -> outcome B) xs ys : Forall2 (fun x y => f x = Ok y) xs ys -> mapM f xs = Ok ys.
Proof. induction 1 as [|x y xs ys H _ IH]; cbn [mapM]; auto. now rewrite H, IH. Qed.

Lemma Forall2_swap {A B} (R : A -> B -> Prop) xs ys : Forall2 R xs ys -> Forall2 (fun y x => R x y) ys xs.
Proof. induction 1; constructor; auto. Qed.

Lemma decode_all vs : Forall U vs -> exists ws, mapM from_utf8 vs = Ok ws /\ Forall2 utf8_text ws vs.
Proof.
  induction 1 as [|v vs [w Hw] _ (ws & E & H)]; [exists []; split; auto|].
  exists (w :: ws). cbn [mapM]. rewrite (from_utf8_text _ _ Hw), E. split; auto.
Qed.

Lemma widen_options os : Forall U (values_in_order os) -> Forall U (tokens_of os) ->
  exists ws, mapM woption_from_option os = Ok ws /\ Forall2 wide_of ws os.
Proof.
  induction os as [|o os IH]; intros Hv Ht; [exists []; split; auto|].
  unfold values_in_order, tokens_of in *. cbn [map List.concat] in *.
  apply Forall_app in Hv. apply Forall_app in Ht. destruct Hv as [Hv1 Hv2], Ht as [Ht1 Ht2].
  destruct (IH Hv2 Ht2) as (ws & E & H). destruct (decode_all _ Hv1) as (v & Ev & Fv). destruct (decode_all _ Ht1) as (t & Et & Ft).
  eexists (_ :: ws). split.
  - cbn [mapM]. unfold woption_from_option at 1. rewrite Ev. cbn [bind]. rewrite Et. cbn [bind]. rewrite E. reflexivity.
  - constructor; auto. repeat split; auto.
Qed.

Lemma encode_all ws : Forall wide_text ws -> exists vs, mapM to_utf8 ws = Ok vs /\ Forall2 utf8_text ws vs.
Proof.
  induction 1 as [|w ws Hw _ (vs & E & H)]; [exists []; split; auto|].
  destruct (utf8_text_exists w Hw) as [v Hv]. exists (v :: vs). cbn [mapM]. rewrite (to_utf8_text _ _ Hv), E. split; auto.
Qed.

Lemma encode_U ws vs : Forall2 utf8_text ws vs -> Forall U vs.
Proof. induction 1; constructor; auto. eexists; eauto. Qed.

Lemma wide_run_lemma c fuel wargs args :
  plain c -> ascii_shorts c -> Forall2 utf8_text wargs args ->
  (exists p ws, parser_run fuel c args = Ok p /\ wparser_run fuel c wargs = Ok (mk_wparsed ws p) /\ Forall2 wide_of ws (pr_options p))
  \/ (exists e, parser_run fuel c args = Throw e /\ wparser_run fuel c wargs = Throw e)
  \/ (exists u, parser_run fuel c args = Undef u /\ wparser_run fuel c wargs = Undef u)
  \/ (parser_run fuel c args = NoFuel /\ wparser_run fuel c wargs = NoFuel).
Proof.
  intros Hp Hs H2. unfold wparser_run, to_internal.
  assert (E : mapM to_utf8 wargs = Ok args).
  { clear -H2. induction H2 as [|w s ws ss Hw _ IH]; cbn [mapM]; auto. now rewrite (to_utf8_text _ _ Hw), IH. }
  rewrite E. cbn [bind]. destruct (parser_run fuel c args) as [p|e|u|] eqn:Er; cbn [bind]; eauto 6.
  left. unfold parser_run in Er. apply bind_Ok in Er. destruct Er as (res & Hr & [= <-]).
  destruct (run_valid _ _ _ _ Hp Hs (encode_U _ _ H2) Hr) as [Hv Ht].
  destruct (widen_options _ Hv Ht) as (ws & Ew & Hw). eexists _, ws. split; [reflexivity|]. unfold wparsed. cbn [pr_options].
  rewrite Ew. split; auto.
Qed.
