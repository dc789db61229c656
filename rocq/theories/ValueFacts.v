(** Values in following tokens. *)

From Coq Require Import List Ascii String NArith ZArith Bool Arith Lia.
From Verif Require Import Base Errors Spec BaseFacts Values OptDesc SpecLookup LookupFacts
  KeyFacts Positional Cmdline SpecCmdline CmdlineFacts RunFacts ParseFacts StickyFacts.
Import ListNotations.

(** ** What looks like an option *)

(** The lookup without guessing succeeds if the other one does. *)
Lemma weaker_ok c x r :
  case_sensitive c -> lookup c [c_dash; x] = Ok r ->
  exists r', find_nothrow (cl_desc c) [c_dash; x] false false
               (has (cl_style c) short_case_insensitive) = Ok r'.
Proof.
  intros [Hl Hs] H. unfold lookup in H. rewrite Hl, Hs in H. rewrite Hs.
  rewrite find_filter in H by apply foldable_sensitive.
  rewrite find_filter by apply foldable_sensitive.
  unfold find_result in *. destruct (fulls_of (cl_desc c) [c_dash; x] false false) as [|f [|]]; eauto.
  unfold approxs_of in *.
  set (g := has (cl_style c) allow_guessing) in *.
  assert (Hsub : forall y, In y (cl_desc c) ->
    negb (full_b y [c_dash; x] false false) && approx_b y [c_dash; x] false false = true ->
    negb (full_b y [c_dash; x] false false) && approx_b y [c_dash; x] g false = true).
  { intros y _ Hy. apply andb_true_iff in Hy. destruct Hy as [-> Hy]. cbn [andb]. now apply approx_b_guess. }
  destruct (filter (fun d => negb (full_b d [c_dash; x] false false) && approx_b d [c_dash; x] g false)
              (cl_desc c)) as [|a [|]] eqn:Ea; try discriminate.
  - rewrite (filter_empty_imp _ _ _ _ Hsub Ea). eauto.
  - destruct (filter_sub _ _ _ _ _ Hsub Ea) as [-> | ->]; eauto.
Qed.

Lemma short_loop_succeeds c tok adj : forall name acc,
  case_sensitive c -> (exists x, name = [c_dash; x] /\ unambiguous c [c_dash; x]) ->
  Forall (fun y => unambiguous c [c_dash; y]) adj ->
  exists os, short_loop c tok name adj acc = Ok os /\ os <> [].
Proof.
  induction adj as [|a adj IH]; intros name acc Hc (x & -> & r & Hx) Hadj; cbn [short_loop];
    destruct (weaker_ok c x r Hc Hx) as [r' ->]; cbn [with_context bind].
  - exists (acc ++ [mk_popt [c_dash; x] (-1) [] [tok] false false]).
    split; [now destruct r'|]. now destruct acc.
  - inversion Hadj as [|? ? Ha Hadj']; subst. destruct r' as [d|].
    + destruct (_ && _); [apply IH; eauto|]. eexists. split; [reflexivity|]. now destruct acc.
    + eexists. split; [reflexivity|]. now destruct acc.
Qed.

Definition answers (p : style_parser) (tok : str) : Prop :=
  p [tok] = Ok ([], [tok]) \/ exists os r, p [tok] = Ok (os, r) /\ os <> [].

Lemma looks_init ps tok :
  (forall p, In p ps -> answers p tok) ->
  exists b, looks_like_option (ps ++ [parse_terminator]) [tok] = Ok b
    /\ ((forall p, In p ps -> p [tok] = Ok ([], [tok])) -> b = false).
Proof.
  induction ps as [|p ps IH]; intros H; cbn [app looks_like_option].
  - unfold parse_terminator. cbn [at_index nth_error bind]. destruct (str_eqb tok _); cbn; eauto.
  - destruct (H p (or_introl eq_refl)) as [E|(os & r & E & Hos)]; rewrite E; cbn [bind is_empty].
    + destruct IH as (b & Hb & Hf); [intros; apply H; now right|]. exists b. split; auto.
      intros Hall. apply Hf. intros q Hq. apply Hall. now right.
    + destruct os as [|o os]; [contradiction|]. exists true. split; [reflexivity|].
      intros Hall. specialize (Hall p (or_introl eq_refl)). congruence.
Qed.

Lemma parsers_list c :
  plain c -> has (cl_style c) allow_long_disguise = false ->
  exists ps, style_parsers c = ps ++ [parse_terminator]
    /\ forall p, In p ps -> p = parse_long_option c \/ p = parse_short_option c \/ p = parse_dos_option c.
Proof.
  intros [H1 H2] H3. unfold style_parsers. rewrite H1, H2, H3. cbn [app].
  eexists. rewrite !app_assoc. split; [reflexivity|].
  intros p Hp.
  repeat (apply in_app_or in Hp; destruct Hp as [Hp|Hp]);
    match type of Hp with
    | In _ (if ?b then _ else _) => destruct b; destruct Hp as [<-|[]] || destruct Hp; auto
    | _ => destruct Hp
    end.
Qed.

Lemma word_skips c v p :
  word v -> p = parse_long_option c \/ p = parse_short_option c \/ p = parse_dos_option c ->
  forall rest, p (v :: rest) = Ok ([], v :: rest).
Proof.
  intros Hw Hp rest.
  destruct Hw as [->|[->|[->|(x & s & -> & Hx & Hy)]]]; destruct Hp as [->|[->| ->]]; try reflexivity.
  - apply long_skips. intros n E. injection E as -> _. contradiction.
  - unfold parse_short_option. cbn [at_index nth_error bind]. destruct s; [reflexivity|].
    destruct (char_eqb_spec x c_dash); [contradiction|]. reflexivity.
  - unfold parse_dos_option. cbn [at_index nth_error bind]. destruct s; [reflexivity|].
    destruct (char_eqb_spec x c_slash); [contradiction|]. reflexivity.
Qed.

Lemma word_looks c v :
  plain c -> has (cl_style c) allow_long_disguise = false -> word v ->
  looks_like_option (style_parsers c) [v] = Ok false.
Proof.
  intros Hp Hg Hw. destruct (parsers_list c Hp Hg) as (ps & -> & Hps).
  destruct (looks_init ps v) as (b & Hb & Hf).
  - intros p Hin. left. now apply (word_skips c); auto.
  - rewrite Hb, Hf; auto. intros p Hin. now apply (word_skips c); auto.
Qed.

Lemma value_token_looks c v :
  plain c -> has (cl_style c) allow_long_disguise = false -> value_token c v ->
  exists b, looks_like_option (style_parsers c) [v] = Ok b /\ (b = true -> lookup c v = Ok None).
Proof.
  intros Hp Hg Hv. destruct (parsers_list c Hp Hg) as (ps & Eps & Hps).
  destruct Hv as [v Hw|n Hn Heq Hl|x s Hc Hx Hs Hl|s Hl].
  - exists false. split; [now apply word_looks|discriminate].
  - rewrite Eps. destruct (looks_init ps (dashdash ++ n)) as (b & Hb & _); [|eauto].
    intros p Hin. destruct (Hps p Hin) as [->|[->| ->]]; [|now left|].
    + destruct (parse_long_cases c (dashdash ++ n) [])
        as [[E _]|[(n' & _ & _ & _ & E)|[(n' & v' & _ & _ & _ & E)|(n' & En & Hw & E)]]].
      * now left.
      * right. do 2 eexists. split; [exact E|discriminate].
      * right. do 2 eexists. split; [exact E|discriminate].
      * exfalso. injection En as En. apply Hw. eapply Heq; eauto.
    + left. reflexivity.
  - rewrite Eps. destruct (looks_init ps (c_dash :: x :: s)) as (b & Hb & _); [|eauto].
    intros p Hin. destruct (Hps p Hin) as [->|[->| ->]].
    + left. apply long_skips. intros n E. injection E as -> _. contradiction.
    + right. unfold parse_short_option. cbn [at_index nth_error bind].
      change (char_eqb c_dash c_dash) with true. destruct (char_eqb_spec x c_dash); [contradiction|].
      cbn [andb negb]. inversion Hs as [|? ? Hxu Hsu]; subst.
      destruct (short_loop_succeeds c (c_dash :: x :: s) s [c_dash; x] []) as (os & -> & Hos); eauto.
      cbn [bind erase_front]. eauto.
    + left. reflexivity.
  - rewrite Eps. destruct (looks_init ps (c_slash :: s)) as (b & Hb & _); [|eauto].
    intros p Hin. destruct (Hps p Hin) as [->|[->| ->]].
    + left. apply long_skips. intros n E. discriminate.
    + left. unfold parse_short_option. cbn [at_index nth_error bind]. now destruct s.
    + unfold answers, parse_dos_option. cbn [at_index nth_error bind]. destruct s; [now left|].
      right. change (char_eqb c_slash c_slash) with true. cbn. do 2 eexists. split; [reflexivity|discriminate].
Qed.

(** ** Options written without a value *)

Lemma bare_step c t typed d rest :
  plain c -> bare c t typed -> lookup c typed = Ok (Some d) ->
  exists before p after, style_parsers c = before ++ p :: after
    /\ (forall q, In q before -> q (t :: rest) = Ok ([], t :: rest))
    /\ p (t :: rest) = Ok ([raw typed [] [t]], rest).
Proof.
  intros Hp Hb Hl. destruct Hb as [n H1 Hn Hw|x H1 H2 H3 Hc Hx].
  - destruct (parsers_long c Hp H1) as [after E]. exists [], (parse_long_option c), after.
    split; [exact E|]. split; [intros q []|]. now apply long_reads.
  - destruct (parsers_short c Hp H1 H2 H3) as (before & after & E & Hbf).
    exists before, (parse_short_option c), after. split; [exact E|]. split.
    + intros q Hq. rewrite (Hbf q Hq). apply long_skips. intros n En. injection En as -> _. contradiction.
    + unfold parse_short_option. cbn [at_index nth_error bind].
      change (char_eqb c_dash c_dash) with true. destruct (char_eqb_spec x c_dash); [contradiction|].
      cbn [andb negb short_loop]. destruct (weaker_ok c x _ Hc Hl) as [r' ->]. cbn [with_context bind].
      now destruct r'.
Qed.

Lemma bare_nonempty c t typed : bare c t typed -> typed <> [].
Proof. intros []; auto. discriminate. Qed.

Lemma finish_bare c ps t typed d rest :
  typed <> [] -> lookup c typed = Ok (Some d) ->
  finish_option c ps (raw typed [] [t]) rest
  = if Z.leb (vs_min (od_sem d)) (Z.of_nat (List.length rest))
    then grab_tokens c ps (od_key d typed) t (if Z.leb 0 (vs_min (od_sem d)) then vs_min (od_sem d) else 0)
           (raw (od_key d typed) [] [t]) rest
    else with_context (od_key d typed) t (cl_prefix c) (Throw (mk_cmdline_syntax missing_parameter [] [] 0)).
Proof.
  intros Hn Hl. unfold finish_option, raw. cbn [po_key po_value po_orig po_pos po_unreg po_ci].
  apply is_empty_false in Hn. rewrite Hn, Hl. cbn [with_context bind List.length]. rewrite Z.add_0_l.
  destruct (Z.leb _ _); [|reflexivity]. cbn [is_empty negb andb Z.of_nat].
  now rewrite Z.sub_0_r.
Qed.

Lemma next_value_step c t typed v rest d :
  plain c -> has (cl_style c) allow_long_disguise = false -> bare c t typed ->
  lookup c typed = Ok (Some d) -> vs_min (od_sem d) = 1%Z -> value_token c v ->
  main_step c (t :: v :: rest) = Ok ([raw (od_key d typed) [v] [t; v]], rest).
Proof.
  intros Hp Hg Hb Hl Hmin Hv.
  destruct (bare_step c t typed d (v :: rest) Hp Hb Hl) as (before & p & after & E & Hbf & Hpt).
  eapply main_step_hit; [exact E|exact Hbf|exact Hpt| |cbn; lia].
  cbn [finish_all]. rewrite (finish_bare c _ t typed d) by eauto using bare_nonempty.
  rewrite Hmin. destruct (Z.leb_spec 1 (Z.of_nat (List.length (v :: rest)))) as [_|Hlt];
    [|cbn [List.length] in Hlt; lia].
  change (Z.leb 0 1) with true. cbv iota. cbn [grab_tokens]. change (Z.eqb 1 0) with false. cbv iota.
  destruct (value_token_looks c v Hp Hg Hv) as (b & -> & Hlk). cbn [with_context bind].
  destruct b.
  - rewrite (Hlk eq_refl). cbn [with_context bind]. change (1 - 1)%Z with 0%Z.
    rewrite grab_zero. reflexivity.
  - cbn [bind]. change (1 - 1)%Z with 0%Z. rewrite grab_zero. reflexivity.
Qed.

Lemma one_step_same c args1 args2 o1 o2 rest :
  plain c -> main_step c (args1 ++ rest) = Ok ([o1], rest) -> main_step c (args2 ++ rest) = Ok ([o2], rest) ->
  args1 <> [] -> args2 <> [] -> same_option o1 o2 -> po_key o1 <> [] ->
  forall r, parse c (args1 ++ rest) = Ok r -> exists r', parse c (args2 ++ rest) = Ok r' /\ Forall2 same_option r r'.
Proof.
  intros Hp H1 H2 Hn1 Hn2 Hs Hk r Hr.
  assert (Hfuel : forall a o, a <> [] -> main_step c (a ++ rest) = Ok ([o], rest) ->
    main_loop (List.length (a ++ rest)) c (a ++ rest)
    = let* more := main_loop (List.length rest) c rest in Ok (o :: more)).
  { intros a o Ha Hst. destruct a as [|x a]; [contradiction|]. cbn [app List.length main_loop].
    cbn [app] in Hst. rewrite Hst. cbn [bind fst snd].
    rewrite (main_loop_more c (List.length rest) (List.length (a ++ rest)) rest).
    - reflexivity.
    - apply main_loop_nofuel; [apply Hp|auto].
    - rewrite app_length. lia. }
  unfold parse, run in *. rewrite (Hfuel _ _ Hn1 H1) in Hr. rewrite (Hfuel _ _ Hn2 H2).
  destruct (main_loop (List.length rest) c rest) as [more| | |]; try discriminate.
  cbn [bind] in *. refine (passes_same c (o1 :: more) (o2 :: more) r _ Hr).
  constructor; [|apply Forall2_eqv_refl]. split; auto.
Qed.

Lemma next_value_lemma c t typed v tok1 key rest :
  plain c -> has (cl_style c) allow_long_disguise = false ->
  bare c t typed -> spelled c tok1 typed v -> takes_one c typed key ->
  (forall d, lookup c typed = Ok (Some d) -> vs_min (od_sem d) = 1%Z) ->
  value_token c v ->
  (forall r, parse c (t :: v :: rest) = Ok r ->
     exists r', parse c (tok1 :: rest) = Ok r' /\ Forall2 same_option r r')
  /\ (forall r, parse c (tok1 :: rest) = Ok r ->
     exists r', parse c (t :: v :: rest) = Ok r' /\ Forall2 same_option r r').
Proof.
  intros Hp Hg Hb Hs Ht Hmin Hv.
  pose proof (spelled_step c tok1 typed v key rest Hp Hs Ht) as H2.
  pose proof Ht as (d & Hl & _ & _ & Hk & Hkn & _). apply is_key_unique in Hk.
  pose proof (next_value_step c t typed v rest d Hp Hg Hb Hl (Hmin d Hl) Hv) as H1.
  rewrite <- Hk in H1. split.
  - apply (one_step_same c [t; v] [tok1] (raw key [v] [t; v]) (raw key [v] [tok1]) rest);
      auto; try discriminate. repeat split; auto.
  - apply (one_step_same c [tok1] [t; v] (raw key [v] [tok1]) (raw key [v] [t; v]) rest);
      auto; try discriminate. repeat split; auto.
Qed.

(** ** Known short options are not taken *)

Lemma not_taken_lemma c t typed d b d2 rest :
  plain c -> bare c t typed -> lookup c typed = Ok (Some d) -> (1 <= vs_min (od_sem d))%Z ->
  has (cl_style c) allow_short = true -> has (cl_style c) allow_dash_for_short = true ->
  has (cl_style c) allow_long_disguise = false -> case_sensitive c ->
  b <> c_dash -> lookup c [c_dash; b] = Ok (Some d2) ->
  fails_with (parse c (t :: [c_dash; b] :: rest)) (invalid_command_line_syntax missing_parameter).
Proof.
  intros Hp Hb Hl Hmin H1 H2 H3 Hc Hbd Hl2.
  destruct (bare_step c t typed d ([c_dash; b] :: rest) Hp Hb Hl) as (before & p & after & E & Hbf & Hpt).
  assert (Hfin : exists e, finish_all c (style_parsers c) [raw typed [] [t]] ([c_dash; b] :: rest) = Throw e
    /\ ex_class e = invalid_command_line_syntax missing_parameter).
  { cbn [finish_all]. rewrite (finish_bare c _ t typed d) by eauto using bare_nonempty.
    destruct (Z.leb _ _); [|eexists; split; reflexivity].
    destruct (Z.leb_spec 0 (vs_min (od_sem d))); [|lia]. cbn [grab_tokens].
    destruct (Z.eqb_spec (vs_min (od_sem d)) 0); [lia|].
    assert (Hlook : looks_like_option (style_parsers c) [[c_dash; b]] = Ok true).
    { destruct (parsers_short c Hp H1 H2 H3) as (bf & af & -> & Hbf2).
      assert (Hskip : forall ps, (forall q, In q ps -> q = parse_long_option c) ->
        looks_like_option (ps ++ parse_short_option c :: af) [[c_dash; b]]
        = looks_like_option (parse_short_option c :: af) [[c_dash; b]]).
      { induction ps as [|q ps IH]; intros Hq; [reflexivity|]. cbn [app looks_like_option].
        rewrite (Hq q (or_introl eq_refl)), long_skips.
        - cbn [bind is_empty]. apply IH. intros; apply Hq; now right.
        - intros m Em. injection Em as -> _. contradiction. }
      rewrite Hskip by auto. cbn [looks_like_option]. unfold parse_short_option.
      cbn [at_index nth_error bind]. change (char_eqb c_dash c_dash) with true.
      destruct (char_eqb_spec b c_dash); [contradiction|]. cbn [andb negb short_loop].
      destruct (weaker_ok c b _ Hc Hl2) as [r' ->]. cbn [with_context bind]. now destruct r'. }
    rewrite Hlook. cbn [with_context bind]. rewrite Hl2. cbn [with_context bind].
    eexists. split; reflexivity. }
  destruct Hfin as (e & Hfin & Hcl). exists e. split; [|exact Hcl].
  unfold parse, run. cbn [List.length main_loop].
  rewrite (main_step_finish_throw c before p after t ([c_dash; b] :: rest) [raw typed [] [t]]
             ([c_dash; b] :: rest) e E Hbf Hpt Hfin). reflexivity.
Qed.

(** A long option, dashes included, is not a name. *)
Lemma long_is_no_name c n :
  case_sensitive c -> Forall plain_longs (cl_desc c) -> Forall one_letter_short (cl_desc c) -> n <> [] ->
  lookup c (dashdash ++ n) = Ok None.
Proof.
  intros [Hl Hs] Hp Ho Hn. unfold lookup. rewrite Hl, Hs.
  rewrite find_filter by apply foldable_sensitive.
  rewrite Forall_forall in Hp, Ho.
  assert (Hf : fulls_of (cl_desc c) (dashdash ++ n) false false = []).
  { unfold fulls_of. destruct (filter _ (cl_desc c)) as [|d ds] eqn:E; [reflexivity|]. exfalso.
    assert (Hin : In d (filter (fun d => full_b d (dashdash ++ n) false false) (cl_desc c))) by (rewrite E; now left).
    apply filter_In in Hin. destruct Hin as [Hd Hfull]. unfold full_b in Hfull.
    destruct (plain_no_long (c_dash :: n) false false (Hp d Hd)) as [E1 _].
    change (dashdash ++ n) with (c_dash :: c_dash :: n) in Hfull. rewrite E1 in Hfull. cbn [orb] in Hfull.
    apply str_eqb_eq in Hfull. cbn [fold_str] in Hfull.
    destruct (Ho d Hd) as [Hsh|[x Hsh]]; rewrite Hsh in Hfull; [discriminate|].
    injection Hfull as Hx Hnil. subst n. contradiction. }
  assert (Ha : approxs_of (cl_desc c) (dashdash ++ n) (has (cl_style c) allow_guessing) false false = []).
  { unfold approxs_of. destruct (filter _ (cl_desc c)) as [|d ds] eqn:E; [reflexivity|]. exfalso.
    match type of E with filter ?f _ = _ => assert (Hin : In d (filter f (cl_desc c))) by (rewrite E; now left) end.
    apply filter_In in Hin. destruct Hin as [Hd Hap]. apply andb_true_iff in Hap. destruct Hap as [_ Hap].
    unfold approx_b in Hap.
    destruct (plain_no_long (c_dash :: n) (has (cl_style c) allow_guessing) false (Hp d Hd)) as [_ E2].
    change (dashdash ++ n) with (c_dash :: c_dash :: n) in Hap. congruence. }
  rewrite Hf, Ha. reflexivity.
Qed.
