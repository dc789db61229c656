(** More about single tokens: unknown names, additional parsers, disguised options,
    values of options with an optional number of tokens. *)

From Coq Require Import List Ascii String NArith ZArith Bool Arith Lia.
From Verif Require Import Base Errors Spec BaseFacts Values OptDesc SpecLookup LookupFacts
  KeyFacts Positional Cmdline Parsers SpecCmdline CmdlineFacts RunFacts ParseFacts StickyFacts
  CongruenceFacts SoundFacts ValueFacts.
Import ListNotations.

(** A token that a style parser reads as one option. *)
Lemma main_step_read c before p after tok rest o :
  style_parsers c = before ++ p :: after ->
  (forall q, In q before -> q (tok :: rest) = Ok ([], tok :: rest)) ->
  p (tok :: rest) = Ok ([o], rest) ->
  main_step c (tok :: rest)
  = let* r := finish_option c (style_parsers c) o rest in Ok ([fst r], snd r).
Proof.
  intros E Hb Hp. destruct (finish_option c (style_parsers c) o rest) as [[f a]|e|u|] eqn:Ef.
  - cbn [bind fst snd]. eapply main_step_hit; eauto.
    + cbn [finish_all]. rewrite Ef. reflexivity.
    + eapply finish_option_length; eauto.
  - cbn [bind]. eapply main_step_finish_throw; eauto. cbn [finish_all]. rewrite Ef. reflexivity.
  - cbn [bind]. unfold main_step. rewrite E at 2. rewrite try_skip by auto. cbn [try_parsers].
    rewrite Hp. cbn [bind finish_all]. rewrite Ef. reflexivity.
  - cbn [bind]. unfold main_step. rewrite E at 2. rewrite try_skip by auto. cbn [try_parsers].
    rewrite Hp. cbn [bind finish_all]. rewrite Ef. reflexivity.
Qed.

(** ** Unknown names *)

Lemma weaker_none c x :
  case_sensitive c -> lookup c [c_dash; x] = Ok None ->
  find_nothrow (cl_desc c) [c_dash; x] false false (has (cl_style c) short_case_insensitive) = Ok None.
Proof.
  intros [Hl Hs] H. unfold lookup in H. rewrite Hl, Hs in H. rewrite Hs.
  rewrite find_filter in H by apply foldable_sensitive.
  rewrite find_filter by apply foldable_sensitive.
  unfold find_result in *. destruct (fulls_of (cl_desc c) [c_dash; x] false false) as [|f [|]]; try discriminate.
  unfold approxs_of in *.
  set (g := has (cl_style c) allow_guessing) in *.
  assert (Hsub : forall y, In y (cl_desc c) ->
    negb (full_b y [c_dash; x] false false) && approx_b y [c_dash; x] false false = true ->
    negb (full_b y [c_dash; x] false false) && approx_b y [c_dash; x] g false = true).
  { intros y _ Hy. apply andb_true_iff in Hy. destruct Hy as [-> Hy]. cbn [andb]. now apply approx_b_guess. }
  destruct (filter (fun d => negb (full_b d [c_dash; x] false false) && approx_b d [c_dash; x] g false)
              (cl_desc c)) as [|a [|]] eqn:Ea; try discriminate.
  now rewrite (filter_empty_imp _ _ _ _ Hsub Ea).
Qed.

Lemma unknown_reads c tok typed rest :
  plain c -> writes c tok typed -> lookup c typed = Ok None ->
  exists before p after vs, style_parsers c = before ++ p :: after
    /\ (forall q, In q before -> q (tok :: rest) = Ok ([], tok :: rest))
    /\ p (tok :: rest) = Ok ([raw typed vs [tok]], rest) /\ typed <> [].
Proof.
  intros Hp Hw. destruct Hw as [[n H1 Hn He|x H1 H2 H3 Hc Hx]|(Hc & v & [n v' H1 Hn He Hv|x v' H1 H2 H3 Hx Hv|x v' H1 H2 H3 Hv])]; intros Hl.
  - destruct (parsers_long c Hp H1) as [after E]. exists [], (parse_long_option c), after, [].
    split; [exact E|]. split; [intros q []|]. split; auto. now apply long_reads.
  - destruct (parsers_short c Hp H1 H2 H3) as (before & after & E & Hbf).
    exists before, (parse_short_option c), after, []. split; [exact E|]. split; [|split; [|discriminate]].
    + intros q Hq. rewrite (Hbf q Hq). apply long_skips. intros n En. injection En as -> _. contradiction.
    + unfold parse_short_option. cbn [at_index nth_error bind].
      change (char_eqb c_dash c_dash) with true. destruct (char_eqb_spec x c_dash); [contradiction|].
      cbn [andb negb short_loop]. rewrite (weaker_none c x Hc Hl). reflexivity.
  - destruct (parsers_long c Hp H1) as [after E]. exists [], (parse_long_option c), after, [v'].
    split; [exact E|]. split; [intros q []|]. split; auto. now apply long_reads_eq.
  - destruct (parsers_short c Hp H1 H2) as (before & after & E & Hbf). { apply H3. }
    exists before, (parse_short_option c), after, [v']. split; [exact E|]. split; [|split; [|discriminate]].
    + intros q Hq. rewrite (Hbf q Hq). apply long_skips. intros n En. injection En as -> _. contradiction.
    + unfold parse_short_option. cbn [app at_index nth_error bind].
      change (char_eqb c_dash c_dash) with true. destruct (char_eqb_spec x c_dash); [contradiction|].
      cbn [andb negb]. destruct v' as [|a v']; [contradiction|]. cbn [short_loop].
      rewrite (weaker_none c x Hc Hl). reflexivity.
  - destruct (parsers_slash c Hp H1 H2 H3) as (before & after & E & Hbf).
    exists before, (parse_dos_option c), after, [v']. split; [exact E|]. split; [|split; [|discriminate]].
    + intros q Hq. destruct (Hbf q Hq) as [->| ->].
      * apply long_skips. intros n En. discriminate En.
      * reflexivity.
    + unfold parse_dos_option. cbn [app at_index nth_error bind].
      change (char_eqb c_slash c_slash) with true. cbn [erase_front bind].
      destruct v'; [contradiction|]. reflexivity.
Qed.

Lemma unknown_exact c pre r tok typed rest :
  plain c -> cl_allow_unregistered c = false -> ~ In dashdash pre -> parse c pre = Ok r ->
  writes c tok typed -> lookup c typed = Ok None ->
  parse c (pre ++ tok :: rest) = Throw (add_context typed tok (cl_prefix c) (mk_unknown_option [])).
Proof.
  intros Hp Hu Hdd Hr Hw Hl.
  destruct (unknown_reads c tok typed rest Hp Hw Hl) as (before & p & after & vs & E & Hb & Hpt & Hn).
  assert (Hst : main_step c (tok :: rest) = Throw (add_context typed tok (cl_prefix c) (mk_unknown_option []))).
  { rewrite (main_step_read c before p after tok rest _ E Hb Hpt).
    unfold finish_option, raw. cbn [po_key po_value po_orig po_pos po_unreg po_ci].
    apply is_empty_false in Hn. rewrite Hn, Hl. cbn [with_context bind]. now rewrite Hu. }
  apply run_ok in Hr. destruct Hr as (r1 & r2 & r4 & Hm & _).
  unfold parse, run. rewrite app_length.
  rewrite (main_loop_app c _ _ pre (tok :: rest) r1); auto.
  - cbn [List.length main_loop]. rewrite Hst. reflexivity.
  - apply Hp.
  - cbn [List.length main_loop]. rewrite Hst. discriminate.
Qed.

Lemma unknown_lemma c pre r tok typed rest :
  plain c -> cl_allow_unregistered c = false -> ~ In dashdash pre -> parse c pre = Ok r ->
  writes c tok typed -> lookup c typed = Ok None ->
  fails_with (parse c (pre ++ tok :: rest)) unknown_option.
Proof.
  intros Hp Hu Hdd Hr Hw Hl. eexists. split; [eapply unknown_exact; eauto|reflexivity].
Qed.

(** ** An additional parser *)

Lemma additional_first c f :
  cl_style_parser c = None -> cl_additional c = Some f ->
  exists after, style_parsers c = [] ++ handle_additional_parser f :: after.
Proof. intros H1 H2. unfold style_parsers. rewrite H1, H2. eexists. reflexivity. Qed.

Lemma additional_step c f tok typed v rest :
  cl_style_parser c = None -> cl_additional c = Some f -> f tok = (typed, v) -> typed <> [] ->
  main_step c (tok :: rest)
  = let* r := finish_option c (style_parsers c) (raw typed (opt_value v) []) rest in Ok ([fst r], snd r).
Proof.
  intros H1 H2 H3 Hn. destruct (additional_first c f H1 H2) as [after E].
  eapply main_step_read; [exact E|intros q []|].
  unfold handle_additional_parser. cbn [at_index nth_error bind]. rewrite H3.
  destruct typed; [contradiction|]. reflexivity.
Qed.

Lemma finish_exact c ps typed vs orig rest d :
  typed <> [] -> lookup c typed = Ok (Some d) ->
  (vs_min (od_sem d) <= Z.of_nat (List.length vs))%Z -> (vs_max (od_sem d) = 0%Z -> vs = []) ->
  finish_option c ps (raw typed vs orig) rest = Ok (raw (od_key d typed) vs orig, rest).
Proof.
  intros Hn Hl Hmin Hmax. unfold finish_option, raw. cbn [po_key po_value po_orig po_pos po_unreg po_ci].
  apply is_empty_false in Hn. rewrite Hn, Hl. cbn [with_context bind].
  destruct (Z.leb_spec (vs_min (od_sem d)) (Z.of_nat (List.length vs) + Z.of_nat (List.length rest))); [|lia].
  assert (E : negb (is_empty vs) && Z.eqb (vs_max (od_sem d)) 0 = false).
  { destruct (Z.eqb_spec (vs_max (od_sem d)) 0) as [E|]; [|apply andb_false_r]. now rewrite (Hmax E). }
  rewrite E.
  replace (if Z.leb (Z.of_nat (List.length vs)) (vs_min (od_sem d))
           then (vs_min (od_sem d) - Z.of_nat (List.length vs))%Z else 0%Z) with 0%Z.
  - apply grab_zero.
  - destruct (Z.leb_spec (Z.of_nat (List.length vs)) (vs_min (od_sem d))); lia.
Qed.

Lemma additional_lemma c f toks kvs :
  cl_style_parser c = None -> cl_additional c = Some f -> Forall2 (mapped c f) toks kvs ->
  exists res, parse c toks = Ok res
    /\ named_options (map fst kvs) (map (fun kv => if is_empty (snd kv) then [] else [snd kv]) kvs)
         (map (fun _ => []) toks) res.
Proof.
  intros H1 H2 H.
  set (os := map (fun kv => raw (fst kv) (opt_value (snd kv)) []) kvs).
  assert (Hm : main_loop (List.length toks) c toks = Ok os).
  { unfold os. clear os. induction H as [|tok kv toks kvs (typed & d & Hf & Hn & Hl & Hk & Hkn & _ & Hm1 & Hm2) _ IH]; auto.
    cbn [List.length main_loop]. rewrite (additional_step c f tok typed (snd kv)) by auto.
    rewrite (finish_exact c _ typed (opt_value (snd kv)) [] toks d); auto.
    - cbn [bind fst snd]. rewrite IH. apply is_key_unique in Hk. rewrite <- Hk. reflexivity.
    - unfold opt_value. destruct (snd kv); cbn; [auto|]. apply Hm2. discriminate.
    - unfold opt_value. destruct (snd kv); cbn; [auto|]. intros E. destruct Hm2 as [_ Hm2]; [discriminate|].
      contradiction. }
  assert (Hos : Forall (fun o => po_key o <> [] /\ unambiguous c (po_key o) /\ po_pos o = (-1)%Z) os).
  { unfold os. clear Hm os. induction H as [|tok kv toks kvs (typed & d & Hf & Hn & Hl & Hk & Hkn & Hu & _) _ IH];
      simpl; constructor; auto. }
  exists (map (set_case_flag c) os). split.
  - unfold parse, run. rewrite Hm. cbn [bind]. now apply passes_named.
  - unfold named_options, os. rewrite !map_map. cbn [set_case_flag po_key po_value po_orig raw].
    split; [reflexivity|]. split; [reflexivity|]. split.
    + clear -H. induction H; simpl; auto. now f_equal.
    + clear. induction kvs; simpl; constructor; auto.
Qed.

(** ** Disguised long options *)

Lemma parsers_disguised c :
  plain c -> has (cl_style c) allow_long = true -> has (cl_style c) allow_long_disguise = true ->
  exists after, style_parsers c = [parse_long_option c] ++ parse_disguised_long_option c :: after.
Proof.
  intros [H1 H2] H3 H4. unfold style_parsers. rewrite H1, H2, H3, H4. eexists. reflexivity.
Qed.

Lemma disguised_test c b x s :
  disguise_char c b (x :: s) ->
  ((char_eqb b c_dash && negb (char_eqb x c_dash))
   || (has (cl_style c) allow_slash_for_short && char_eqb b c_slash)) = true.
Proof.
  intros [[-> H]|[-> H]]; cbn [hd] in *.
  - change (char_eqb c_dash c_dash) with true. destruct (char_eqb_spec x c_dash); [contradiction|]. reflexivity.
  - rewrite H. change (char_eqb c_slash c_slash) with true. apply orb_true_r.
Qed.

Lemma disguised_new c b x s :
  disguise_char c b (x :: s) ->
  c_dash :: (if char_eqb b c_slash then c_dash else b) :: x :: s = dashdash ++ x :: s.
Proof. intros [[-> H]|[-> H]]; reflexivity. Qed.

Lemma disguised_reads c b n rest d :
  disguise_char c b n -> n <> [] -> without c_eq n -> lookup c n = Ok (Some d) ->
  parse_disguised_long_option c ((b :: n) :: rest) = Ok ([raw n [] [dashdash ++ n]], rest).
Proof.
  intros Hb Hn Hw Hl. destruct n as [|x s]; [contradiction|].
  unfold parse_disguised_long_option. cbn [at_index nth_error bind].
  rewrite (disguised_test c b x s Hb).
  assert (Hbe : without c_eq (b :: x :: s)).
  { intros [E|H]; [|now apply Hw]. destruct Hb as [[-> _]|[-> _]]; discriminate. }
  rewrite (proj2 (find_char_None c_eq _) Hbe). change (substr (b :: x :: s) 1) with (x :: s).
  rewrite Hl. cbn [with_context bind erase_front tl]. rewrite (disguised_new c b x s Hb).
  unfold dashdash. cbn [app]. rewrite long_reads by auto. reflexivity.
Qed.

Lemma disguised_reads_eq c b n v rest d :
  disguise_char c b n -> n <> [] -> without c_eq n -> v <> [] -> lookup c n = Ok (Some d) ->
  parse_disguised_long_option c ((b :: n ++ c_eq :: v) :: rest)
  = Ok ([raw n [v] [dashdash ++ n ++ c_eq :: v]], rest).
Proof.
  intros Hb Hn Hw Hv Hl. destruct n as [|x s]; [contradiction|].
  unfold parse_disguised_long_option. cbn [app at_index nth_error bind].
  assert (Hb' : disguise_char c b (x :: s ++ c_eq :: v)) by exact Hb.
  rewrite (disguised_test c b x _ Hb').
  assert (Hbe : without c_eq (b :: x :: s)).
  { intros [E|H]; [|now apply Hw]. destruct Hb as [[-> _]|[-> _]]; discriminate. }
  change (b :: x :: s ++ c_eq :: v) with ((b :: x :: s) ++ c_eq :: v).
  rewrite (find_char_app v Hbe).
  assert (E : substr_n ((b :: x :: s) ++ c_eq :: v) 1 (List.length (b :: x :: s) - 1) = x :: s).
  { unfold substr_n. cbn [List.length app skipn]. rewrite Nat.sub_succ, Nat.sub_0_r.
    change (x :: s ++ c_eq :: v) with ((x :: s) ++ c_eq :: v).
    change (S (List.length s)) with (List.length (x :: s)). rewrite firstn_app, Nat.sub_diag, firstn_all.
    cbn [firstn]. apply app_nil_r. }
  rewrite E, Hl. cbn [app with_context bind erase_front tl]. rewrite (disguised_new c b x _ Hb').
  unfold dashdash. cbn [app].
  change (c_dash :: c_dash :: x :: s ++ c_eq :: v) with (c_dash :: c_dash :: (x :: s) ++ c_eq :: v).
  rewrite long_reads_eq by auto. reflexivity.
Qed.

Lemma disguised_lemma c b n rest d :
  plain c -> has (cl_style c) allow_long = true -> has (cl_style c) allow_long_disguise = true ->
  disguise_char c b n -> n <> [] -> without c_eq n -> lookup c n = Ok (Some d) ->
  parse c ((b :: n) :: rest) = parse c ((dashdash ++ n) :: rest).
Proof.
  intros Hp H1 H2 Hb Hn Hw Hl. destruct (parsers_disguised c Hp H1 H2) as [after E].
  destruct (parsers_long c Hp H1) as [after2 E2].
  assert (Hs : main_step c ((b :: n) :: rest) = main_step c ((dashdash ++ n) :: rest)).
  { rewrite (main_step_read c _ _ _ (b :: n) rest (raw n [] [dashdash ++ n]) E).
    - rewrite (main_step_read c _ _ _ (dashdash ++ n) rest (raw n [] [dashdash ++ n]) E2); auto.
      + intros q [].
      + now apply long_reads.
    - intros q [<-|[]]. apply long_skips. intros m Em. injection Em as -> Em. subst n.
      destruct Hb as [[_ Hb]|[Hb _]]; [cbn in Hb; congruence|discriminate].
    - eapply disguised_reads; eauto. }
  unfold parse, run. cbn [List.length main_loop]. now rewrite Hs.
Qed.

Lemma disguised_eq_lemma c b n v rest d :
  plain c -> has (cl_style c) allow_long = true -> has (cl_style c) allow_long_disguise = true ->
  disguise_char c b n -> n <> [] -> without c_eq n -> v <> [] -> lookup c n = Ok (Some d) ->
  parse c ((b :: n ++ [c_eq] ++ v) :: rest) = parse c ((dashdash ++ n ++ [c_eq] ++ v) :: rest).
Proof.
  intros Hp H1 H2 Hb Hn Hw Hv Hl. destruct (parsers_disguised c Hp H1 H2) as [after E].
  destruct (parsers_long c Hp H1) as [after2 E2]. cbn [app].
  assert (Hs : main_step c ((b :: n ++ c_eq :: v) :: rest) = main_step c ((dashdash ++ n ++ c_eq :: v) :: rest)).
  { rewrite (main_step_read c _ _ _ (b :: n ++ c_eq :: v) rest (raw n [v] [dashdash ++ n ++ c_eq :: v]) E).
    - rewrite (main_step_read c _ _ _ (dashdash ++ n ++ c_eq :: v) rest
                 (raw n [v] [dashdash ++ n ++ c_eq :: v]) E2); auto.
      + intros q [].
      + now apply long_reads_eq.
    - intros q [<-|[]]. apply long_skips. intros m Em. injection Em as -> Em.
      destruct n as [|x s]; [contradiction|]. injection Em as -> _.
      destruct Hb as [[_ Hb]|[Hb _]]; [cbn in Hb; congruence|discriminate].
    - eapply disguised_reads_eq; eauto. }
  unfold parse, run. cbn [List.length main_loop]. now rewrite Hs.
Qed.

(** ** "--=v" *)

Lemma eq_positional_lemma c v :
  plain c -> has (cl_style c) allow_long = true -> cl_positional c = None -> v <> [] ->
  exists o, parse c [dashdash ++ [c_eq] ++ v] = Ok [o]
    /\ po_key o = [] /\ po_pos o = 0%Z /\ po_value o = [v] /\ po_unreg o = false.
Proof.
  intros Hp H1 Hpos Hv. destruct (parsers_long c Hp H1) as [after E].
  assert (Hs : main_step c [dashdash ++ [c_eq] ++ v] = Ok ([raw [] [v] [dashdash ++ [c_eq] ++ v]], [])).
  { rewrite (main_step_read c _ _ _ _ [] (raw [] [v] [dashdash ++ [c_eq] ++ v]) E).
    - reflexivity.
    - intros q [].
    - apply (long_reads_eq c [] v []); auto. intros []. }
  unfold parse, run. cbn [List.length main_loop]. rewrite Hs. cbn [bind fst snd app main_loop].
  rewrite Hpos. cbn. eexists. split; [reflexivity|]. cbn. auto.
Qed.

(** ** Collecting what was not recognized *)

Lemma collect_lemma os mode :
  collect_unrecognized os mode
  = tokens_of (filter (fun o => po_unreg o || match mode with
                                              | include_positional => negb (Z.eqb (po_pos o) (-1))
                                              | exclude_positional => false
                                              end) os).
Proof.
  unfold tokens_of. induction os as [|o os IH]; [reflexivity|].
  cbn [collect_unrecognized filter]. rewrite IH. destruct (_ || _); reflexivity.
Qed.

Lemma empty_lookup c name d : cl_desc c = [] -> lookup c name <> Ok (Some d).
Proof. intros Hd H. apply lookup_In in H. rewrite Hd in H. destruct H. Qed.

Definition leftover (o : popt) : Prop := po_unreg o = true \/ po_key o = [].

Lemma empty_step c tok rest opts args' :
  has (cl_style c) allow_long_disguise = false -> plain c -> cl_desc c = [] -> tok <> dashdash ->
  step_result c tok rest opts args' ->
  args' = rest /\ tokens_of opts = [tok] /\ Forall leftover opts.
Proof.
  intros Hg [_ Ha] Hd Hne [(os & Hr & Hf)|[(E & _)|(-> & ->)]].
  - pose proof (finish_all_tokens _ _ _ _ _ _ Hf) as Ht. rewrite (reads_tokens _ _ _ Hg Ha Hr) in Ht.
    assert (H1 : exists o, os = [o]).
    { destruct Hr as [| |flags x adj _ _ _ _ _ Hfl| | | |]; eauto. destruct flags as [|a flags]; [eexists; reflexivity|].
      inversion Hfl as [|? ? (d & Hd' & _) _]; subst. unfold find_nothrow in Hd'. apply find_found_In in Hd'.
      rewrite Hd in Hd'. destruct Hd'. }
    destruct H1 as [o ->]. cbn [finish_all] in Hf. apply bind_Ok in Hf.
    destruct Hf as ((f & a) & Hf & [= <- <-]). cbn [fst snd] in *. apply finish_option_ok in Hf.
    assert (E : a = rest /\ leftover f).
    { unfold leftover. destruct Hf as [(Hk & -> & ->)|[(_ & _ & _ & -> & ->)|(_ & d & ts & Hl & _)]].
      - auto.
      - split; auto.
      - now apply empty_lookup in Hl. }
    destruct E as [-> Hl]. split; auto. split; [|auto].
    apply (app_inv_tail rest). exact Ht.
  - contradiction.
  - split; auto. split; [reflexivity|]. constructor; [|constructor]. now right.
Qed.

Lemma empty_loop c fuel args opts :
  has (cl_style c) allow_long_disguise = false -> plain c -> cl_desc c = [] ->
  main_loop fuel c args = Ok opts ->
  Forall leftover opts
  /\ (~ In dashdash args /\ tokens_of opts = args
      \/ exists pre post, ~ In dashdash pre /\ args = pre ++ dashdash :: post /\ tokens_of opts = pre ++ post).
Proof.
  intros Hg Hp Hd. revert args opts. induction fuel as [|fuel IH]; intros args opts H.
  - destruct args; cbn [main_loop] in H; [|discriminate]. injection H as <-.
    split; [constructor|]. left. split; [intros []|reflexivity].
  - destruct args as [|tok rest].
    { cbn [main_loop] in H. injection H as <-. split; [constructor|]. left. split; [intros []|reflexivity]. }
    destruct (list_eq_dec ascii_dec tok dashdash) as [->|Hne].
    + rewrite main_loop_dd in H by auto. injection H as <-. split.
      * apply Forall_forall. intros o Ho. apply in_map_iff in Ho. destruct Ho as (t & <- & _). now right.
      * right. exists [], rest. split; [intros []|]. split; [reflexivity|]. apply tokens_term.
    + cbn [main_loop] in H. apply bind_Ok in H. destruct H as ((o & a) & H1 & H). cbn [fst snd] in H.
      apply bind_Ok in H. destruct H as (more & H2 & [= <-]).
      apply main_step_ok in H1; [|apply Hp].
      destruct (empty_step c tok rest o a Hg Hp Hd Hne H1) as (-> & Ht & Hl).
      destruct (IH _ _ H2) as [Hm Hc]. split; [apply Forall_app; auto|].
      rewrite tokens_app, Ht. destruct Hc as [[Hn ->]|(pre & post & Hn & -> & ->)].
      * left. split; [|reflexivity]. intros [E|E]; [congruence|auto].
      * right. exists (tok :: pre), post. split; [|auto]. intros [E|E]; [congruence|auto].
Qed.

Definition kept (o : popt) : Prop := po_unreg o = true \/ po_pos o <> (-1)%Z.

Lemma merged_leftover c a b : merged c a b -> Forall leftover a -> Forall leftover b.
Proof.
  induction 1 as [|o os rs Hk Hm IH|o taken os rs Hk Ht Hr Hl Hm IH]; intros H; auto.
  - inversion H; subst. constructor; auto.
  - inversion H as [|? ? Ho Hos]; subst. apply Forall_app in Hos. constructor; [|apply IH, Hos].
    destruct Ho as [Ho|Ho]; [left; exact Ho|contradiction].
Qed.

Lemma number_kept k rs : (0 <= k)%Z -> Forall leftover rs -> Forall kept (number_positionals k rs).
Proof.
  revert k. induction rs as [|o rs IH]; intros k Hk H; [constructor|]. inversion H as [|? ? Ho Hos]; subst.
  cbn [number_positionals]. destruct (is_empty (po_key o)) eqn:E; constructor.
  - right. cbn. lia.
  - apply IH; [lia|auto].
  - apply is_empty_false in E. destruct Ho as [Ho|Ho]; [now left|contradiction].
  - now apply IH.
Qed.

Lemma name_kept p k rs rs' : name_positionals p k rs = Ok rs' -> Forall kept rs -> Forall kept rs'.
Proof.
  revert k rs'; induction rs as [|o rs IH]; intros k rs' H Hk; cbn [name_positionals] in H.
  - injection H as <-. auto.
  - inversion Hk; subst. destruct (Z.eqb _ _).
    + apply bind_Ok in H. destruct H as (r & H & [= <-]). constructor; eauto.
    + destruct (Z.leb _ _); [discriminate|]. apply bind_Ok in H. destruct H as (n & _ & H).
      apply bind_Ok in H. destruct H as (r & H & [= <-]). constructor; eauto.
Qed.

Lemma kept_all c rs : Forall kept rs ->
  filter (fun o => po_unreg o || negb (Z.eqb (po_pos o) (-1))) (map (set_case_flag c) rs)
  = map (set_case_flag c) rs.
Proof.
  induction 1 as [|o rs Ho _ IH]; [reflexivity|]. cbn [map filter]. rewrite IH.
  replace (po_unreg (set_case_flag c o) || negb (Z.eqb (po_pos (set_case_flag c o)) (-1))) with true; [reflexivity|].
  cbn. destruct Ho as [->|Ho]; [reflexivity|]. destruct (Z.eqb_spec (po_pos o) (-1)); [contradiction|].
  now rewrite orb_true_r.
Qed.

Lemma collect_all_lemma c args res :
  plain c -> has (cl_style c) allow_long_disguise = false -> cl_desc c = [] -> parse c args = Ok res ->
  ~ In dashdash args /\ collect_unrecognized res include_positional = args
  \/ exists pre post, ~ In dashdash pre /\ args = pre ++ dashdash :: post
       /\ collect_unrecognized res include_positional = pre ++ post.
Proof.
  intros Hp Hg Hd H. apply run_ok in H. destruct H as (r1 & r2 & r4 & H1 & H2 & H4 & ->).
  destruct (empty_loop c _ _ _ Hg Hp Hd H1) as [Hl Ht].
  assert (Hk : Forall kept r4 /\ tokens_of r4 = tokens_of r1).
  { pose proof (number_kept 0 r2 ltac:(lia) (merged_leftover _ _ _ H2 Hl)) as Hk.
    pose proof (merged_tokens _ _ _ H2) as Et. destruct (cl_positional c).
    - split; [eapply name_kept; eauto|]. now rewrite (name_tokens _ _ _ _ H4), number_tokens.
    - subst r4. split; auto. now rewrite number_tokens. }
  destruct Hk as [Hk Et]. rewrite collect_lemma, kept_all, case_tokens, Et by auto. exact Ht.
Qed.

(** ** Options that may take more values than they need *)

Lemma grab_tokens_words c key k : plain c -> has (cl_style c) allow_long_disguise = false ->
  forall vals t o, k <= List.length vals -> Forall word vals ->
  grab_tokens c (style_parsers c) key t (Z.of_nat k) o vals = Ok (take_tokens (firstn k vals) o, skipn k vals).
Proof.
  intros Hp Hg. induction k as [|k IH]; intros vals t o Hk Hw.
  - rewrite grab_zero. cbn [firstn skipn]. now rewrite take_tokens_nil.
  - destruct vals as [|v vals]; [cbn in Hk; lia|]. cbn [grab_tokens firstn skipn].
    destruct (Z.eqb_spec (Z.of_nat (S k)) 0) as [E|_]; [lia|].
    inversion Hw; subst. rewrite word_looks by auto. cbn [with_context bind].
    replace (Z.of_nat (S k) - 1)%Z with (Z.of_nat k) by lia. cbn in Hk. rewrite IH by (auto; lia).
    f_equal. f_equal. change (v :: firstn k vals) with ([v] ++ firstn k vals).
    now rewrite <- take_tokens_app.
Qed.

Lemma words_loop c fuel vals :
  plain c -> has (cl_style c) allow_long_disguise = false ->
  Forall (fun v => word v /\ v <> dashdash) vals -> List.length vals <= fuel ->
  main_loop fuel c vals = Ok (map pos_opt vals).
Proof.
  intros Hp Hg H. revert fuel. induction H as [|v vals [Hw Hne] _ IH]; intros fuel Hf; [now destruct fuel|].
  destruct fuel as [|fuel]; [cbn in Hf; lia|]. cbn [main_loop].
  rewrite main_step_none.
  - cbn [bind fst snd]. rewrite IH by (cbn in Hf; lia). reflexivity.
  - intros q Hq. destruct (parsers_list c Hp Hg) as (ps & E & Hps). rewrite E in Hq.
    apply in_app_or in Hq. destruct Hq as [Hq|[<-|[]]].
    + now apply (word_skips c); auto.
    + unfold parse_terminator. cbn [at_index nth_error bind].
      destruct (str_eqb_spec v $"--"); [contradiction|]. reflexivity.
Qed.

Lemma grab_positional_take vals : forall m o,
  (0 <= m)%Z ->
  grab_positional m o (map pos_opt vals)
  = Ok (absorb o (map pos_opt (firstn (Z.to_nat m) vals)), map pos_opt (skipn (Z.to_nat m) vals)).
Proof.
  induction vals as [|v vals IH]; intros m o Hm.
  - cbn [map grab_positional]. rewrite firstn_nil, skipn_nil. cbn [map]. now rewrite absorb_nil.
  - cbn [map grab_positional pos_opt raw po_key po_pos po_value po_orig is_empty negb].
    destruct (Z.eqb_spec m 0) as [->|Hm0]; [cbn; now rewrite absorb_nil|].
    change (Z.eqb (-1) INT_MAX) with false. cbv iota.
    destruct (Z.eqb_spec m INT_MIN) as [E|_]; [unfold INT_MIN in E; lia|].
    rewrite IH by lia. replace (Z.to_nat m) with (S (Z.to_nat (m - 1))) by lia.
    cbn [firstn skipn map]. unfold absorb at 1. cbn [po_key po_pos po_value po_orig po_unreg po_ci].
    unfold absorb. cbn [map List.concat app pos_opt raw po_value po_orig]. now rewrite <- !app_assoc.
Qed.

Lemma grab_positional_negative vals : forall m o,
  (m < 0)%Z -> (INT_MIN < m - Z.of_nat (List.length vals))%Z ->
  grab_positional m o (map pos_opt vals) = Ok (absorb o (map pos_opt vals), []).
Proof.
  induction vals as [|v vals IH]; intros m o Hm Hl.
  - cbn [map grab_positional]. now rewrite absorb_nil.
  - cbn [map grab_positional pos_opt raw po_key po_pos po_value po_orig is_empty negb].
    cbn [List.length] in Hl.
    destruct (Z.eqb_spec m 0); [lia|]. change (Z.eqb (-1) INT_MAX) with false. cbv iota.
    destruct (Z.eqb_spec m INT_MIN) as [E|_]; [lia|]. rewrite IH by lia.
    unfold absorb. cbn [map List.concat app pos_opt raw po_value po_orig po_key po_pos po_unreg po_ci].
    now rewrite <- !app_assoc.
Qed.

Lemma number_pos c k ts :
  (0 <= k)%Z ->
  positional_items k ts (map (set_case_flag c) (number_positionals k (map pos_opt ts))).
Proof.
  revert k; induction ts as [|t ts IH]; intros k Hk; [exact I|].
  cbn [map number_positionals is_empty po_key pos_opt raw positional_items].
  split; [repeat split|]. apply IH. lia.
Qed.

Lemma merge_pos c ts fuel : List.length ts <= fuel ->
  merge_pass fuel c (map pos_opt ts) = Ok (map pos_opt ts).
Proof.
  revert fuel. induction ts as [|t ts IH]; intros fuel Hf; [now destruct fuel|].
  destruct fuel; [cbn in Hf; lia|]. cbn [map merge_pass is_empty po_key pos_opt raw].
  fold (pos_opt t). rewrite IH by (cbn in Hf; lia). reflexivity.
Qed.

Lemma to_int_uint m : (0 <= m < INT_MAX)%Z -> to_int (UINT_MAX - m) = (-1 - m)%Z.
Proof.
  intros H. unfold to_int, INT_MAX, UINT_MAX in *.
  rewrite Z.mod_small by lia. destruct (Z.leb_spec (4294967295 - m) 2147483647); lia.
Qed.

Lemma concat_values ts : List.concat (map po_value (map pos_opt ts)) = ts.
Proof. induction ts; cbn; congruence. Qed.

Lemma implicit_lemma c t typed d key vals :
  plain c -> has (cl_style c) allow_long_disguise = false -> cl_positional c = None ->
  bare c t typed -> lookup c typed = Ok (Some d) -> is_key d typed key -> key <> [] ->
  lookup c key = Ok (Some d) ->
  (0 <= vs_min (od_sem d) < vs_max (od_sem d))%Z ->
  (vs_max (od_sem d) <= INT_MAX \/ vs_max (od_sem d) = UINT_MAX)%Z ->
  (vs_min (od_sem d) <= Z.of_nat (List.length vals) < INT_MAX)%Z ->
  Forall (fun v => word v /\ v <> dashdash) vals ->
  exists o tail, parse c (t :: vals) = Ok (o :: tail)
    /\ po_key o = key /\ po_pos o = (-1)%Z /\ po_unreg o = false
    /\ po_value o = firstn (Z.to_nat (vs_max (od_sem d))) vals
    /\ positional_items 0 (skipn (Z.to_nat (vs_max (od_sem d))) vals) tail.
Proof.
  intros Hp Hg Hpos Hb Hl Hk Hkn Hlk Hmm Hmax Hlen Hw.
  set (mn := Z.to_nat (vs_min (od_sem d))). set (mx := Z.to_nat (vs_max (od_sem d))).
  assert (Hww : Forall word vals) by (eapply Forall_impl; [|exact Hw]; cbv beta; tauto).
  assert (Hst : main_step c (t :: vals)
    = Ok ([take_tokens (firstn mn vals) (raw key [] [t])], skipn mn vals)).
  { destruct (bare_step c t typed d vals Hp Hb Hl) as (before & p & after & E & Hbf & Hpt).
    rewrite (main_step_read c before p after t vals _ E Hbf Hpt).
    rewrite (finish_bare c _ t typed d) by eauto using bare_nonempty.
    destruct (Z.leb_spec (vs_min (od_sem d)) (Z.of_nat (List.length vals))); [|lia].
    destruct (Z.leb_spec 0 (vs_min (od_sem d))); [|lia].
    replace (vs_min (od_sem d)) with (Z.of_nat mn) by (unfold mn; lia).
    rewrite grab_tokens_words by (auto; unfold mn; lia).
    apply is_key_unique in Hk. now rewrite <- Hk. }
  set (o1 := take_tokens (firstn mn vals) (raw key [] [t])) in *.
  assert (Hsk : List.length (skipn mn vals) = List.length vals - mn) by apply skipn_length.
  assert (Hval : po_value o1 = firstn mn vals) by reflexivity.
  assert (Hn : Z.of_nat (List.length (po_value o1)) = vs_min (od_sem d)).
  { rewrite Hval, firstn_length. unfold mn. lia. }
  assert (Hgrab : exists o2, grab_positional (to_int (vs_max (od_sem d) - vs_min (od_sem d))) o1
      (map pos_opt (skipn mn vals)) = Ok (o2, map pos_opt (skipn mx vals))
      /\ po_key o2 = key /\ po_pos o2 = (-1)%Z /\ po_unreg o2 = false
      /\ po_value o2 = firstn mx vals).
  { destruct Hmax as [Hmax|Hmax].
    - rewrite to_int_small by lia. rewrite grab_positional_take by lia. eexists. split.
      + f_equal. f_equal. f_equal. rewrite <- (firstn_skipn mn vals) at 2. rewrite skipn_app.
        rewrite (skipn_all2 (n := mx)) by (rewrite firstn_length; unfold mn, mx; lia).
        cbn [app]. f_equal. rewrite firstn_length. unfold mn, mx. lia.
      + split; [reflexivity|]. split; [reflexivity|]. split; [reflexivity|].
        unfold absorb. cbn [po_value]. rewrite Hval, concat_values.
        rewrite <- (firstn_skipn mn vals) at 3. rewrite firstn_app.
        rewrite (firstn_all2 (n := mx)) by (rewrite firstn_length; unfold mn, mx; lia).
        f_equal. f_equal. rewrite firstn_length. unfold mn, mx. lia.
    - rewrite Hmax, to_int_uint by lia. rewrite grab_positional_negative.
      + assert (Hbig : List.length vals <= mx) by (unfold mx; rewrite Hmax; unfold INT_MAX, UINT_MAX in *; lia).
        eexists. split; [f_equal; f_equal; rewrite skipn_all2 by exact Hbig; reflexivity|].
        split; [reflexivity|]. split; [reflexivity|]. split; [reflexivity|].
        unfold absorb. cbn [po_value]. rewrite Hval, concat_values, firstn_skipn.
        now rewrite firstn_all2 by exact Hbig.
      + lia.
      + rewrite Hsk. unfold mn, INT_MIN, INT_MAX in *. lia. }
  destruct Hgrab as (o2 & Hgrab & Hk2 & Hp2 & Hu2 & Hv2).
  exists (set_case_flag c o2), (map (set_case_flag c) (number_positionals 0 (map pos_opt (skipn mx vals)))).
  split; [|split; [exact Hk2|split; [exact Hp2|split; [exact Hu2|split; [exact Hv2|]]]]].
  - unfold parse, run. cbn [List.length main_loop]. rewrite Hst. cbn [bind fst snd].
    rewrite words_loop; auto.
    + cbn [bind app List.length merge_pass]. change (po_key o1) with key.
      assert (Ek : is_empty key = false) by now apply is_empty_false.
      rewrite Ek, Hlk. cbn [bind]. rewrite Hn.
      destruct (Z.ltb_spec (vs_min (od_sem d)) (vs_max (od_sem d))); [|lia]. cbn [andb].
      rewrite Hgrab. cbn [bind fst snd]. rewrite merge_pos.
      * cbn [bind number_positionals]. rewrite Hk2, Ek, Hpos. reflexivity.
      * rewrite map_length, !skipn_length. unfold mn, mx. lia.
    + apply Forall_forall. intros v Hv. rewrite Forall_forall in Hw. apply Hw.
      rewrite <- (firstn_skipn mn vals). apply in_or_app. now right.
    + rewrite Hsk. lia.
  - apply number_pos. lia.
Qed.
