(** Consequences for whole command lines. *)

From Coq Require Import List Ascii String NArith ZArith Bool Arith Lia.
From Verif Require Import Base Errors Spec BaseFacts Values OptDesc SpecLookup LookupFacts
  KeyFacts Positional Cmdline SpecCmdline CmdlineFacts RunFacts.
Import ListNotations.

(** ** Forward reasoning about one iteration *)

Lemma try_skip c ps todo1 todo2 args :
  (forall p, In p todo1 -> p args = Ok ([], args)) ->
  try_parsers c ps (todo1 ++ todo2) args = try_parsers c ps todo2 args.
Proof.
  induction todo1 as [|p todo1 IH]; intros H; auto. cbn [app try_parsers].
  rewrite H by now left. cbn [bind finish_all]. rewrite Nat.eqb_refl, IH by (intros; apply H; now right).
  destruct (try_parsers c ps todo2 args) as [[[f a] o]| | |]; reflexivity.
Qed.

Lemma try_hit c ps p todo args os rest opts args' :
  p args = Ok (os, rest) -> finish_all c ps os rest = Ok (opts, args') ->
  List.length args' < List.length args ->
  try_parsers c ps (p :: todo) args = Ok (opts, args', true).
Proof.
  intros Hp Hf Hl. cbn [try_parsers]. rewrite Hp. cbn [bind]. rewrite Hf. cbn [bind].
  destruct (Nat.eqb_spec (List.length args') (List.length args)); [lia|reflexivity].
Qed.

Lemma main_step_hit c before p after tok rest os rest1 opts args' :
  style_parsers c = before ++ p :: after ->
  (forall q, In q before -> q (tok :: rest) = Ok ([], tok :: rest)) ->
  p (tok :: rest) = Ok (os, rest1) ->
  finish_all c (style_parsers c) os rest1 = Ok (opts, args') ->
  List.length args' <= List.length rest ->
  main_step c (tok :: rest) = Ok (opts, args').
Proof.
  intros E Hq Hp Hf Hl. unfold main_step. rewrite E at 2. rewrite try_skip by auto.
  rewrite (try_hit c _ p after (tok :: rest) os rest1 opts args'); auto. simpl. lia.
Qed.

Lemma main_step_throw c before p after tok rest e :
  style_parsers c = before ++ p :: after ->
  (forall q, In q before -> q (tok :: rest) = Ok ([], tok :: rest)) ->
  p (tok :: rest) = Throw e ->
  main_step c (tok :: rest) = Throw e.
Proof.
  intros E Hq Hp. unfold main_step. rewrite E at 2. rewrite try_skip by auto.
  cbn [try_parsers]. now rewrite Hp.
Qed.

Lemma main_step_finish_throw c before p after tok rest os rest1 e :
  style_parsers c = before ++ p :: after ->
  (forall q, In q before -> q (tok :: rest) = Ok ([], tok :: rest)) ->
  p (tok :: rest) = Ok (os, rest1) ->
  finish_all c (style_parsers c) os rest1 = Throw e ->
  main_step c (tok :: rest) = Throw e.
Proof.
  intros E Hq Hp Hf. unfold main_step. rewrite E at 2. rewrite try_skip by auto.
  cbn [try_parsers]. rewrite Hp. cbn [bind]. now rewrite Hf.
Qed.

Lemma main_step_none c tok rest :
  (forall q, In q (style_parsers c) -> q (tok :: rest) = Ok ([], tok :: rest)) ->
  main_step c (tok :: rest) = Ok ([pos_opt tok], rest).
Proof.
  intros H. unfold main_step. rewrite <- (app_nil_r (style_parsers c)) at 2.
  rewrite try_skip by auto. reflexivity.
Qed.

(** Tokens the parsers leave alone. *)
Lemma long_skips c tok rest :
  (forall n, tok = c_dash :: c_dash :: n -> n = []) ->
  parse_long_option c (tok :: rest) = Ok ([], tok :: rest).
Proof.
  intros H.
  destruct (parse_long_cases c tok rest)
    as [[E _]|[(n & -> & Hn & _)|[(n & v & -> & _)|(n & -> & _)]]]; auto.
  - exfalso. apply Hn. auto.
  - specialize (H _ eq_refl). destruct n; discriminate.
  - specialize (H _ eq_refl). destruct n; discriminate.
Qed.

Lemma style_parsers_snoc c : exists init, style_parsers c = init ++ [parse_terminator]
  /\ (plain c -> forall rest p, In p init -> p (dashdash :: rest) = Ok ([], dashdash :: rest)).
Proof.
  unfold style_parsers. eexists. split.
  { rewrite !app_assoc. reflexivity. }
  intros [Hc Ha] rest p Hin. rewrite Hc, Ha in Hin. cbn [app] in Hin. rewrite <- !app_assoc in Hin.
  rewrite !in_app_iff in Hin. destruct Hin as [Hin|[Hin|[Hin|Hin]]].
  - destruct (has _ _); [|destruct Hin]. destruct Hin as [<-|[]]. reflexivity.
  - destruct (has _ _); [|destruct Hin]. destruct Hin as [<-|[]].
    unfold parse_disguised_long_option, dashdash. cbn [at_index nth_error bind].
    change (char_eqb c_dash c_dash) with true. change (char_eqb c_dash c_slash) with false.
    rewrite !andb_false_r. reflexivity.
  - destruct (_ && _); [|destruct Hin]. destruct Hin as [<-|[]]. reflexivity.
  - destruct (_ && _); [|destruct Hin]. destruct Hin as [<-|[]]. reflexivity.
Qed.

Lemma main_step_dd c rest :
  plain c -> main_step c (dashdash :: rest) = Ok (map term_opt rest, []).
Proof.
  intros Hc. destruct (style_parsers_snoc c) as (init & E & H).
  apply main_step_hit with init parse_terminator [] (map term_opt rest) []; auto.
  - apply finish_all_term.
  - simpl. lia.
Qed.

Lemma main_loop_dd c rest fuel :
  plain c -> main_loop (S fuel) c (dashdash :: rest) = Ok (map term_opt rest).
Proof.
  intros Hc. cbn [main_loop]. rewrite main_step_dd by auto. cbn [bind fst snd].
  destruct fuel; cbn [main_loop bind]; now rewrite app_nil_r.
Qed.

(** ** Positions before and after numbering *)

Definition pre_opt (o : popt) : Prop := po_key o = [] \/ po_pos o = (-1)%Z.

Lemma finish_option_pos c ps o other o' other' :
  finish_option c ps o other = Ok (o', other') -> po_pos o' = po_pos o.
Proof.
  intros H. apply finish_option_ok in H.
  destruct H as [(_ & -> & _)|[(_ & _ & _ & -> & _)|(_ & d & ts & _ & _ & -> & _)]]; auto.
Qed.

Lemma Forall2_impl A B (P Q : A -> B -> Prop) l l' :
  (forall a b, P a b -> Q a b) -> Forall2 P l l' -> Forall2 Q l l'.
Proof. induction 2; auto. Qed.

Lemma step_pre c tok rest opts args' :
  step_result c tok rest opts args' -> Forall pre_opt opts.
Proof.
  intros [(os & Hr & Hf)|[(_ & _ & ->)|(-> & _)]].
  - destruct (reads_last _ _ _ Hr) as (fl & o & -> & _ & Hp & _).
    apply finish_all_snoc_ok in Hf. destruct Hf as (fs & f & -> & Hf & Hl).
    apply Forall_app. split.
    + clear Hl Hr. apply Forall_forall. intros x Hx.
      assert (Hex : exists y, In y (map (fun a => raw [c_dash; a] [] []) fl)
                      /\ finish_option c (style_parsers c) y [] = Ok (x, [])).
      { clear - Hf Hx. revert Hx. induction Hf as [|y z ys zs Hyz _ IH]; intros []; subst.
        - exists y. split; [now left|auto].
        - destruct IH as (w & H1 & H2); auto. exists w. split; [now right|auto]. }
      destruct Hex as (y & Hy & E). apply finish_option_pos in E. right. rewrite E.
      apply in_map_iff in Hy. destruct Hy as (a & <- & _). reflexivity.
    + constructor; auto. right. rewrite (finish_option_pos _ _ _ _ _ _ Hl). auto.
  - apply Forall_forall. intros x Hx. apply in_map_iff in Hx. destruct Hx as (a & <- & _). now left.
  - constructor; auto. now left.
Qed.

Lemma steps_pre c args opts : steps c args opts -> Forall pre_opt opts.
Proof.
  induction 1; auto. apply Forall_app. split; auto. eapply step_pre; eauto.
Qed.

Lemma merged_pre c a b : merged c a b -> Forall pre_opt a -> Forall pre_opt b.
Proof.
  induction 1 as [|o os rs Hk Hm IH|o tk os rs Hk Ht Hr Hl Hm IH]; intros H; auto.
  - inversion H; subst. constructor; auto.
  - inversion H as [|x l Hx Hrest]; subst. apply Forall_app in Hrest. destruct Hrest.
    constructor; auto.
Qed.

Definition count_pos (rs : list popt) : Z := count_positionals rs.

Lemma number_count k rs :
  (0 <= k)%Z -> Forall pre_opt rs -> count_positionals (number_positionals k rs) = Z.of_nat (count_empty rs).
Proof.
  unfold count_positionals, positionals, count_empty.
  revert k; induction rs as [|o rs IH]; intros k Hk H; auto.
  inversion H as [|x l Hx Hrest]; subst. cbn [number_positionals].
  cbn [filter]. destruct (is_empty (po_key o)) eqn:E.
  - cbn [filter po_pos]. destruct (Z.eqb_spec k (-1)); [lia|]. cbn [negb List.length].
    rewrite Nat2Z.inj_succ, IH by (auto; lia). cbn [List.length]. lia.
  - apply is_empty_false in E. destruct Hx as [Hx|Hx]; [congruence|].
    cbn [filter]. rewrite Hx. cbn. apply IH; auto.
Qed.

Lemma case_count c rs : count_positionals (map (set_case_flag c) rs) = count_positionals rs.
Proof.
  unfold count_positionals, positionals. f_equal. induction rs as [|o rs IH]; auto.
  cbn [map filter]. unfold set_case_flag at 1. cbn [po_pos].
  destruct (negb (Z.eqb (po_pos o) (-1))); cbn [List.length]; congruence.
Qed.

Lemma number_term c k ts :
  (0 <= k)%Z ->
  positional_items k ts (map (set_case_flag c) (number_positionals k (map term_opt ts))).
Proof.
  revert k; induction ts as [|t ts IH]; intros k Hk; [exact I|].
  cbn [map number_positionals is_empty po_key term_opt positional_items].
  split; [repeat split|]. apply IH. lia.
Qed.

Lemma terminator_lemma c pre rest r :
  plain c -> cl_positional c = None -> ~ In dashdash pre -> parse c pre = Ok r ->
  exists tail, parse c (pre ++ dashdash :: rest) = Ok (r ++ tail)
    /\ positional_items (count_positionals r) rest tail.
Proof.
  intros Hp Hn Hd H. unfold parse, run in H. rewrite Hn in H.
  apply bind_Ok in H. destruct H as (r1 & H1 & H). apply bind_Ok in H. destruct H as (r2 & H2 & H).
  cbn [bind] in H. injection H as <-.
  assert (E1 : main_loop (List.length (pre ++ dashdash :: rest)) c (pre ++ dashdash :: rest)
               = Ok (r1 ++ map term_opt rest)).
  { rewrite app_length. rewrite (main_loop_app c _ _ pre (dashdash :: rest) r1 (proj1 Hp) Hd H1);
      cbn [List.length]; rewrite main_loop_dd by auto; [reflexivity|discriminate]. }
  assert (E2 : merge_pass (List.length (r1 ++ map term_opt rest)) c (r1 ++ map term_opt rest)
               = Ok (r2 ++ map term_opt rest)).
  { rewrite (merge_app_full c r1 _ r2); auto.
    - rewrite merge_term. reflexivity.
    - destruct rest; simpl; auto. }
  assert (Hpre : Forall pre_opt r2).
  { eapply merged_pre; [eapply merge_ok; eauto|]. eapply steps_pre. eapply main_loop_steps; eauto. apply Hp. }
  exists (map (set_case_flag c) (number_positionals (Z.of_nat (count_empty r2)) (map term_opt rest))).
  split.
  - unfold parse, run. rewrite E1. cbn [bind]. rewrite E2. cbn [bind]. rewrite Hn. cbn [bind].
    rewrite number_app, map_app. reflexivity.
  - rewrite case_count, number_count by (auto; lia). apply number_term. lia.
Qed.

(** ** Options that need nothing from the following tokens *)

Lemma grab_zero c ps key t o other : grab_tokens c ps key t 0 o other = Ok (o, other).
Proof. destruct other; reflexivity. Qed.

Lemma finish_one c ps n v orig other d :
  n <> [] -> lookup c n = Ok (Some d) -> (vs_min (od_sem d) <= 1)%Z -> vs_max (od_sem d) <> 0%Z ->
  finish_option c ps (raw n [v] orig) other = Ok (raw (od_key d n) [v] orig, other).
Proof.
  intros Hn Hl Hmin Hmax. unfold finish_option, raw. cbn [po_key po_value po_orig po_pos po_unreg po_ci].
  apply is_empty_false in Hn. rewrite Hn, Hl. cbn [with_context bind List.length].
  destruct (Z.leb_spec (vs_min (od_sem d)) (Z.of_nat 1 + Z.of_nat (List.length other))); [|lia].
  destruct (Z.eqb_spec (vs_max (od_sem d)) 0); [congruence|]. cbn [is_empty negb andb].
  destruct (Z.leb_spec (Z.of_nat 1) (vs_min (od_sem d))).
  - replace (vs_min (od_sem d) - Z.of_nat 1)%Z with 0%Z by lia. apply grab_zero.
  - apply grab_zero.
Qed.

(** Decomposition of the list of parsers, without user parsers. *)
Lemma parsers_long c :
  plain c -> has (cl_style c) allow_long = true ->
  exists after, style_parsers c = [] ++ parse_long_option c :: after.
Proof.
  intros [Hc Ha] Hl. unfold style_parsers. rewrite Hc, Ha, Hl. cbn [app]. eauto.
Qed.

Lemma parsers_short c :
  plain c -> has (cl_style c) allow_short = true -> has (cl_style c) allow_dash_for_short = true ->
  has (cl_style c) allow_long_disguise = false ->
  exists before after, style_parsers c = before ++ parse_short_option c :: after
    /\ forall p, In p before -> p = parse_long_option c.
Proof.
  intros [Hc Ha] Hs Hd Hg. unfold style_parsers. rewrite Hc, Ha, Hs, Hd, Hg. cbn [app andb].
  eexists _, _. split; [reflexivity|]. intros p Hp.
  destruct (has (cl_style c) allow_long); [|destruct Hp]. destruct Hp as [<-|[]]. reflexivity.
Qed.

Lemma parsers_slash c :
  plain c -> has (cl_style c) allow_short = true -> has (cl_style c) allow_slash_for_short = true ->
  has (cl_style c) allow_long_disguise = false ->
  exists before after, style_parsers c = before ++ parse_dos_option c :: after
    /\ forall p, In p before -> p = parse_long_option c \/ p = parse_short_option c.
Proof.
  intros [Hc Ha] Hs Hd Hg. unfold style_parsers. rewrite Hc, Ha, Hs, Hd, Hg. cbn [app andb].
  eexists (_ ++ _), _. split; [rewrite <- app_assoc; reflexivity|]. intros p Hp.
  apply in_app_or in Hp. destruct Hp as [Hp|Hp].
  - destruct (has (cl_style c) allow_long); [|destruct Hp]. destruct Hp as [<-|[]]. auto.
  - destruct (has (cl_style c) allow_dash_for_short); [|destruct Hp]. destruct Hp as [<-|[]]. auto.
Qed.

Lemma split_unique (x : char) a b a' b' :
  without x a -> without x a' -> a ++ x :: b = a' ++ x :: b' -> a = a' /\ b = b'.
Proof.
  unfold without. revert a'; induction a as [|y a IH]; intros [|z a'] Ha Ha' E; simpl in *.
  - injection E as E. auto.
  - injection E as E1 E2. exfalso. apply Ha'. now left.
  - injection E as E1 E2. exfalso. apply Ha. now left.
  - injection E as E1 E2. destruct (IH a') as [-> ->]; auto. now subst.
Qed.

Lemma long_reads_eq c n v rest :
  without c_eq n -> v <> [] ->
  parse_long_option c ((c_dash :: c_dash :: n ++ c_eq :: v) :: rest)
  = Ok ([raw n [v] [c_dash :: c_dash :: n ++ c_eq :: v]], rest).
Proof.
  intros Hn Hv.
  destruct (parse_long_cases c (c_dash :: c_dash :: n ++ c_eq :: v) rest)
    as [[_ Hx]|[(n' & E & _ & Hw & _)|[(n' & v' & E & Hn' & Hv' & E')|(n' & E & Hn' & _)]]].
  - specialize (Hx _ eq_refl). destruct n; discriminate.
  - injection E as E. exfalso. apply Hw. rewrite <- E. apply in_or_app. right. now left.
  - rewrite E'. injection E as E.
    destruct (split_unique _ _ _ _ _ Hn Hn' E) as [-> ->]. reflexivity.
  - injection E as E. destruct (split_unique _ _ _ _ _ Hn Hn' E). congruence.
Qed.

Lemma long_reads c n rest :
  without c_eq n -> n <> [] ->
  parse_long_option c ((c_dash :: c_dash :: n) :: rest)
  = Ok ([raw n [] [c_dash :: c_dash :: n]], rest).
Proof.
  intros Hn Hne.
  destruct (parse_long_cases c (c_dash :: c_dash :: n) rest)
    as [[_ Hx]|[(n' & E & _ & Hw & E')|[(n' & v' & E & _)|(n' & E & _)]]].
  - exfalso. apply Hne. auto.
  - injection E as <-. auto.
  - injection E as ->. exfalso. apply Hn. apply in_or_app. right. now left.
  - injection E as ->. exfalso. apply Hn. apply in_or_app. right. now left.
Qed.

Lemma short_reads_value c x v rest d :
  short_style_ok c x -> x <> c_dash -> v <> [] ->
  lookup c [c_dash; x] = Ok (Some d) -> vs_max (od_sem d) <> 0%Z ->
  parse_short_option c ((c_dash :: x :: v) :: rest)
  = Ok ([raw [c_dash; x] [v] [c_dash :: x :: v]], rest).
Proof.
  intros (Hg & Hf & Hl) Hx Hv Hd Hm. unfold parse_short_option. cbn [at_index nth_error bind].
  change (char_eqb c_dash c_dash) with true. destruct (char_eqb_spec x c_dash); [congruence|].
  cbn [andb negb]. destruct v as [|a v]; [congruence|]. cbn [short_loop].
  destruct (short_lookup_weaker _ _ _ _ _ _ Hf Hl Hd) as [E|E]; rewrite E;
    cbn [with_context bind erase_front is_empty app].
  - destruct (Z.eqb_spec (vs_max (od_sem d)) 0); [congruence|]. rewrite andb_false_r. reflexivity.
  - reflexivity.
Qed.

Lemma spelled_step c tok typed v key rest :
  plain c -> spelled c tok typed v -> takes_one c typed key ->
  main_step c (tok :: rest) = Ok ([raw key [v] [tok]], rest).
Proof.
  intros Hp Hs (d & Hl & Hmin & Hmax & Hk & Hkn & _).
  apply is_key_unique in Hk. subst key.
  assert (Hfin : forall n ps tk, n = typed -> n <> [] ->
     finish_all c ps [raw n [v] [tk]] rest = Ok ([raw (od_key d n) [v] [tk]], rest)).
  { intros n ps tk -> Hn. cbn [finish_all]. rewrite (finish_one c ps typed v [tk] rest d); auto. }
  destruct Hs.
  - destruct (parsers_long c Hp) as [after E]; auto. unfold dashdash. cbn [app].
    eapply main_step_hit; [exact E|intros q []|apply long_reads_eq; auto|apply Hfin; auto|auto].
  - destruct (parsers_short c Hp) as (before & after & E & Hb); auto. { apply H1. }
    cbn [app]. eapply main_step_hit; [exact E| |eapply short_reads_value; eauto|apply Hfin; auto; discriminate|auto].
    intros q Hq. rewrite (Hb q Hq). apply long_skips. intros n En. injection En as -> _. congruence.
  - destruct (parsers_slash c Hp) as (before & after & E & Hb); auto.
    cbn [app]. eapply main_step_hit with (os := [raw [c_dash; x] [v] [c_slash :: x :: v]]) (rest1 := rest);
      [exact E| | |apply Hfin; auto; discriminate|auto].
    + intros q Hq. destruct (Hb q Hq) as [->| ->].
      * apply long_skips. intros n En. discriminate En.
      * unfold parse_short_option. cbn [at_index nth_error bind].
        change (char_eqb c_slash c_dash) with false. reflexivity.
    + unfold parse_dos_option. cbn [at_index nth_error bind].
      change (char_eqb c_slash c_slash) with true. cbn [erase_front bind].
      destruct v; [congruence|]. reflexivity.
Qed.

(** ** Lists of such options *)

Lemma merge_named c os :
  Forall (fun o => po_key o <> [] /\ unambiguous c (po_key o)) os ->
  merge_pass (List.length os) c os = Ok os.
Proof.
  induction 1 as [|o os [Hk [xd Hl]] Hos IH]; auto. cbn [List.length merge_pass].
  apply is_empty_false in Hk. rewrite Hk, Hl. cbn [bind].
  assert (E : (let* r := merge_pass (List.length os) c os in Ok (o :: r)) = Ok (o :: os))
    by now rewrite IH.
  destruct xd as [d|]; [|exact E]. destruct (_ && _); [|exact E].
  assert (Hg : forall n, grab_positional n o os = Ok (o, os)).
  { intros n. destruct os as [|o2 os]; [reflexivity|]. cbn [grab_positional].
    destruct (Z.eqb n 0); [reflexivity|]. inversion Hos as [|? ? [Hk2 _] _]; subst.
    apply is_empty_false in Hk2. rewrite Hk2. reflexivity. }
  rewrite Hg. cbn [bind fst snd]. exact E.
Qed.

Lemma number_named k os :
  Forall (fun o => po_key o <> []) os -> number_positionals k os = os.
Proof.
  revert k; induction os as [|o os IH]; intros k H; auto. inversion H; subst. cbn [number_positionals].
  assert (E : is_empty (po_key o) = false) by now apply is_empty_false. rewrite E, IH; auto.
Qed.

Lemma name_named p k os :
  Forall (fun o => po_pos o = (-1)%Z) os -> name_positionals p k os = Ok os.
Proof.
  induction os as [|o os IH]; intros H; auto. inversion H as [|? ? H1 H2]; subst. cbn [name_positionals].
  rewrite H1. cbn. rewrite IH; auto.
Qed.

Lemma passes_named c os :
  Forall (fun o => po_key o <> [] /\ unambiguous c (po_key o) /\ po_pos o = (-1)%Z) os ->
  (let* r2 := merge_pass (List.length os) c os in
   let r3 := number_positionals 0 r2 in
   let* r4 := match cl_positional c with Some p => name_positionals p 0 r3 | None => Ok r3 end in
   Ok (map (set_case_flag c) r4)) = Ok (map (set_case_flag c) os).
Proof.
  intros H. rewrite merge_named by (eapply Forall_impl; [|exact H]; cbv beta; intros; tauto). cbn [bind].
  rewrite number_named by (eapply Forall_impl; [|exact H]; cbv beta; intros; tauto).
  destruct (cl_positional c); [|reflexivity].
  rewrite name_named by (eapply Forall_impl; [|exact H]; cbv beta; intros; tauto). reflexivity.
Qed.

Lemma round_trip_lemma c toks kvs :
  plain c ->
  Forall2 (fun tok kv => exists typed, spelled c tok typed (snd kv) /\ takes_one c typed (fst kv)) toks kvs ->
  exists res, parse c toks = Ok res
    /\ named_options (map fst kvs) (map (fun kv => [snd kv]) kvs) (map (fun t => [t]) toks) res.
Proof.
  intros Hp H.
  set (os := map (fun tk => raw (fst (snd tk)) [snd (snd tk)] [fst tk]) (combine toks kvs)).
  assert (Hm : main_loop (List.length toks) c toks = Ok os).
  { unfold os. clear os. induction H as [|tok kv toks kvs (typed & Hs & Ht) _ IH]; auto.
    cbn [List.length main_loop]. rewrite (spelled_step c tok typed (snd kv) (fst kv)) by auto.
    cbn [bind fst snd]. rewrite IH. reflexivity. }
  assert (Hos : Forall (fun o => po_key o <> [] /\ unambiguous c (po_key o) /\ po_pos o = (-1)%Z) os).
  { unfold os. clear Hm os. induction H as [|tok kv toks kvs (typed & Hs & Ht) _ IH]; simpl; constructor; auto.
    destruct Ht as (d & _ & _ & _ & _ & H1 & H2). auto. }
  exists (map (set_case_flag c) os). split.
  - unfold parse, run. rewrite Hm. cbn [bind]. now apply passes_named.
  - unfold named_options, os. rewrite !map_map. cbn [set_case_flag po_key po_value po_orig raw].
    clear -H. induction H as [|tok kv toks kvs _ _ (IH1 & IH2 & IH3 & IH4)]; simpl; [repeat split; auto|].
    rewrite IH1, IH2, IH3. repeat split; auto.
Qed.

Lemma empty_adjacent_lemma c n rest :
  plain c -> has (cl_style c) allow_long = true -> without c_eq n ->
  fails_with (parse c ((dashdash ++ n ++ [c_eq]) :: rest))
    (invalid_command_line_syntax empty_adjacent_parameter).
Proof.
  intros Hp Hl Hn. destruct (parsers_long c Hp Hl) as [after E].
  unfold parse, run. cbn [List.length main_loop].
  rewrite (main_step_throw c [] _ after _ rest
             (mk_cmdline_syntax empty_adjacent_parameter n n (cl_prefix c)) E).
  - eexists. split; [reflexivity|reflexivity].
  - intros q [].
  - unfold dashdash. cbn [app].
    destruct (parse_long_cases c (c_dash :: c_dash :: n ++ [c_eq]) rest)
      as [[_ Hx]|[(n' & En & _ & Hw & _)|[(n' & v' & En & Hn' & Hv' & E')|(n' & En & Hn' & E')]]].
    + specialize (Hx _ eq_refl). destruct n; discriminate.
    + injection En as En. exfalso. apply Hw. rewrite <- En. apply in_or_app. right. now left.
    + injection En as En. destruct (split_unique _ _ _ _ _ Hn Hn' En). congruence.
    + injection En as En. apply app_inj_tail in En. destruct En as [<- _]. exact E'.
Qed.
