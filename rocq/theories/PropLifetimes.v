(** C100: how long descriptions, parsers, results of parsing, maps and variables must live. *)

From Coq Require Import List Ascii String NArith ZArith Bool Lia.
From Verif Require Import Base Errors Spec Values OptDesc Positional Cmdline Parsers ConfigFile VarMap Build Objects SpecStore
  SpecObjects Lifetimes SpecLifetimes LifetimeFacts Samples.
Import ListNotations.

(** C100. Destroying objects is never seen: as long as a program does not use what it has destroyed, it sees what it would
    see if nothing were destroyed, *)
Theorem C100_unseen : forall fuel cs xs r,
  life_run fuel life_start cs = (xs, r) -> r <> Undef UB_dangling ->
  exists r', life_run fuel life_start (without_ends cs) = (xs, r')
    /\ match r with Ok _ => exists w', r' = Ok w' | _ => r' = r end.
Proof.
  intros fuel cs xs r Hrun Hr. destruct (run_shadow _ _ _ _ _ _ _ shadow_start Hrun Hr) as (r' & Hr' & Hm).
  exists r'. split; [assumption|]. destruct r; try assumption. destruct Hm as (w' & -> & _). eauto.
Qed.
Print Assumptions C100_unseen.

(** C100. and whether it does is decided by the rules of SpecLifetimes: a program that runs to its end if nothing is
    destroyed runs to the same end exactly if every object lives long enough, *)
Theorem C100_safe : forall fuel cs xs w',
  life_run fuel life_start (without_ends cs) = (xs, Ok w') ->
  (lives_long_enough fuel cs <-> exists w, life_run fuel life_start cs = (xs, Ok w)).
Proof.
  intros fuel cs xs w' Hrun. destruct (run_exact _ _ _ _ _ _ _ shadow_start held_start Hrun) as [(Hl & Hw)|(Hl & ys & zs & _ & Hy)].
  - split; intros _; [assumption|exact Hl].
  - split; [intros H; contradiction|]. intros (w & Hw). congruence.
Qed.
Print Assumptions C100_safe.

(** C100. and otherwise uses a destroyed object, after having seen the same up to that point. *)
Theorem C100_unsafe : forall fuel cs xs w',
  life_run fuel life_start (without_ends cs) = (xs, Ok w') -> ~ lives_long_enough fuel cs ->
  exists ys zs, xs = ys ++ zs /\ life_run fuel life_start cs = (ys, Undef UB_dangling).
Proof.
  intros fuel cs xs w' Hrun Hn. destruct (run_exact _ _ _ _ _ _ _ shadow_start held_start Hrun) as [(Hl & _)|(_ & H)]; [contradiction|assumption].
Qed.
Print Assumptions C100_unsafe.

(** C100. The same for one call: it is undefined exactly if it uses an object that was destroyed before. *)
Theorem C100_call : forall fuel before c xs w xs' w' w1' ys,
  life_run fuel life_start before = (xs, Ok w) -> life_run fuel life_start (without_ends before) = (xs', Ok w') ->
  is_end c = false -> life_step fuel w' c = Ok (w1', ys) ->
  (uses_destroyed before w' c /\ life_step fuel w c = Undef UB_dangling)
  \/ (~ uses_destroyed before w' c /\ exists w1, life_step fuel w c = Ok (w1, ys)).
Proof.
  intros fuel before c xs w xs' w' w1' ys Hb Hb' Hc Hst.
  assert (Hs : shadow before w w').
  { destruct (run_shadow _ _ _ _ _ _ _ shadow_start Hb) as (r' & Hr' & w2 & -> & Hs); [discriminate|].
    assert (w2 = w') by congruence. subst w2. exact Hs. }
  assert (Hptr : uses_destroyed before w' c <-> ptr_uses before w' c).
  { apply uses_ptr with (fuel := fuel); [exact (held_run _ _ _ _ _ _ held_start Hb')|rewrite Hst; exact I]. }
  destruct (step_shadow fuel _ _ _ c Hs Hc) as [[Hu He]|[[Hu He]|[_ He]]].
  - left. split; [tauto|assumption].
  - right. split; [tauto|]. rewrite Hst in He. destruct (life_step fuel w c) as [[w1 ys']|e|u|]; cbn in He; try contradiction.
    destruct He as [-> _]. eauto.
  - rewrite Hst in He. cbn in He. tauto.
Qed.
Print Assumptions C100_call.

(** C100. A map keeps what it has: calls that leave it alone, in particular the end of every description, parser, source
    and other map, change neither what [notify] does, *)
Theorem C100_kept_notify : forall fuel w after xs w1 m w2 ys,
  life_run fuel w after = (xs, Ok w1) -> Forall (leaves_map m) after -> (forall a, ~ In (LEndVariable a) after) ->
  life_step fuel w (LNotify m) = Ok (w2, ys) -> life_step fuel w1 (LNotify m) = Ok (w1, ys).
Proof.
  intros fuel w after xs w1 m w2 ys Hrun Hl Hv Hst.
  assert (Hg := run_gone _ _ _ _ _ Hrun Hv).
  destruct w as [ds qs ps ss ms gone], w1 as [ds1 qs1 ps1 ss1 ms1 gone1]. cbn in Hg. subst gone1. cbn [life_step] in *.
  destruct (fetch ms m) as [mo|e|u|] eqn:Em; cbn [bind] in Hst; try discriminate Hst.
  apply fetch_ok in Em. assert (E1 := run_leaves _ _ _ _ _ m mo Hrun Hl Em). cbn in E1. apply fetch_ok in E1. rewrite E1. cbn [bind].
  destruct (notify (mo_map mo)) as [ev r]. destruct (existsb (writes_gone gone) ev); [discriminate|].
  destruct r; try discriminate Hst; injection Hst as _ <-; reflexivity.
Qed.
Print Assumptions C100_kept_notify.

(** C100. nor what a lookup finds in it. *)
Theorem C100_kept_get : forall fuel w after xs w1 m mo name,
  life_run fuel w after = (xs, Ok w1) -> Forall (leaves_map m) after ->
  nth_error (lw_maps w) m = Some (Some mo) -> mo_next mo = None ->
  life_step (S fuel) w1 (LGet m name) = Ok (w1, [SValue (vm_get (mo_map mo) name)]).
Proof.
  intros fuel w after xs w1 m mo name Hrun Hl Hm Hn.
  assert (E1 := run_leaves _ _ _ _ _ m mo Hrun Hl Hm). apply fetch_ok in E1.
  destruct w1 as [ds1 qs1 ps1 ss1 ms1 gone1]. cbn [life_step life_index lw_maps] in *. rewrite E1. cbn [bind]. rewrite Hn. reflexivity.
Qed.
Print Assumptions C100_kept_get.

(** C100. A source refers to its description and does not keep a copy: an option that is added to the description before
    the source is stored counts as if it had been there when the source was read, if that would have read the same. *)
Theorem C100_added_later : forall fuel w x v d read p1 p2 m utf8,
  nth_error (lw_descs w) x = Some (Some v) ->
  read (ods_list v) = Ok p1 -> read (ods_list (ods_add v d)) = Ok p2 ->
  pr_options p1 = pr_options p2 -> pr_prefix p1 = pr_prefix p2 ->
  let s := List.length (lw_sources w) in
  life_run fuel w [LParse x read; LDesc (DAdd x d); LStore s m utf8]
  = life_run fuel w [LDesc (DAdd x d); LParse x read; LStore s m utf8].
Proof.
  intros fuel [ds qs ps ss ms gone] x v d read p1 p2 m utf8 Hx H1 H2 Ho Hp s. cbn [lw_descs lw_sources] in *.
  assert (E : fetch ds x = Ok v) by (apply fetch_ok; assumption).
  assert (E' : fetch (set_cell ds x (Some (ods_add v d))) x = Ok (ods_add v d)).
  { apply fetch_ok. rewrite nth_set_cell, Nat.eqb_refl, Hx. reflexivity. }
  cbn [life_run life_step life_desc].
  repeat (first [rewrite E | rewrite E' | rewrite H1 | rewrite H2]; cbn [life_run life_step life_desc bind caught fst snd]).
  rewrite Ho, Hp. cbv zeta.
  match goal with |- context [match bind (made ?a ?b) ?f with _ => _ end] => destruct (bind (made a b) f) as [[w1 ys]|e|u|]; reflexivity end.
Qed.
Print Assumptions C100_added_later.

(** C100. In such a program, reading and storing are what they are for values: a source that is read and stored has the effect of
    [store] with the description, *)
Theorem C100_stores : forall fuel w x v read p m mo utf8 vm r,
  nth_error (lw_descs w) x = Some (Some v) -> nth_error (lw_maps w) m = Some (Some mo) ->
  read (ods_list v) = Ok p -> pr_desc p = Some (ods_list v) ->
  store p (mo_map mo) utf8 = (vm, r) -> r = Ok tt \/ (exists e, r = Throw e) ->
  exists w1, life_run fuel w [LParse x read; LStore (List.length (lw_sources w)) m utf8] = ([SEnd (Ok tt); SEnd r], Ok w1)
    /\ nth_error (lw_maps w1) m = Some (Some (mk_mo vm (mo_next mo))).
Proof.
  intros fuel [ds qs ps ss ms gone] x v read [opts desc prefix] m mo utf8 vm r Hx Hm Hread Hdesc Hst Hr. cbn [lw_descs lw_maps lw_sources pr_desc] in *.
  assert (Hx' := proj2 (fetch_ok _ ds x v) Hx). assert (Hm' := proj2 (fetch_ok _ ms m mo) Hm). subst desc.
  assert (Hs : made (ss ++ [Some (mk_ls opts x prefix)]) (List.length ss) = Ok (mk_ls opts x prefix)).
  { apply made_ok. rewrite nth_app_one, Nat.eqb_refl. reflexivity. }
  cbn [life_run life_step]. rewrite Hx'. cbn [bind]. rewrite Hread. cbn [bind caught fst snd pr_options pr_prefix life_run life_step].
  rewrite Hs. cbn [bind ls_desc ls_options ls_prefix]. rewrite Hm'. cbn [bind]. rewrite Hx'. cbn [bind]. rewrite Hst.
  destruct Hr as [->|[e ->]]; (eexists; split; [reflexivity|]; cbn [lw_maps]; rewrite nth_set_cell, Nat.eqb_refl, Hm; reflexivity).
Qed.
Print Assumptions C100_stores.

(** C100. and a parser that is made, told everything and run gives what the chain of these calls gives. *)
Theorem C100_runs : forall fuel w args x v q pos settings pp p pp',
  nth_error (lw_descs w) x = Some (Some v) -> nth_error (lw_positionals w) q = Some (Some pos) ->
  parser_chain (new_parser args) (call_options (ods_list v) :: call_positional pos :: map setting_call settings) = Ok pp ->
  parser_object_run fuel pp = Ok (p, pp') ->
  let n := List.length (lw_parsers w) in
  exists w1, life_run fuel w ([LNewParser args; LOptions n x; LPositional n q] ++ map (LSetting n) settings ++ [LRun n])
             = (map (fun _ => SEnd (Ok tt)) settings ++ [SEnd (Ok tt)], Ok w1)
    /\ nth_error (lw_sources w1) (List.length (lw_sources w)) = Some (Some (mk_ls (pr_options p) x (pr_prefix p)))
    /\ lw_descs w1 = lw_descs w /\ lw_maps w1 = lw_maps w.
Proof.
  intros fuel [ds qs ps ss ms gone] args x v q pos settings pp p pp' Hx Hq Hch Hrun n. cbn [lw_descs lw_positionals lw_parsers lw_sources lw_maps] in *.
  assert (Hx' := proj2 (fetch_ok _ ds x v) Hx). assert (Hq' := proj2 (fetch_ok _ qs q pos) Hq).
  assert (Hat : forall l (y : option parser_ptr), List.length l = n -> nth_error (l ++ [y]) n = Some y).
  { intros l y <-. rewrite nth_app_one, Nat.eqb_refl. reflexivity. }
  assert (Hset : forall l (y z : option parser_ptr), List.length l = n -> set_cell (l ++ [y]) n z = l ++ [z]).
  { intros l y z Hl. subst n. revert Hl. generalize (List.length ps) as k. induction l as [|u l IH]; intros [|k] Hk; try discriminate Hk; [reflexivity|].
    cbn. f_equal. apply IH. cbn in Hk. congruence. }
  assert (Hmade : forall y, made (ps ++ [Some y]) n = Ok y) by (intros y; apply made_ok; apply Hat; reflexivity).
  cbn [app life_run life_step]. rewrite Hmade. cbn [bind]. rewrite Hx'. cbn [bind life_run life_step]. rewrite Hset by reflexivity.
  rewrite Hmade. cbn [bind lp_self lp_desc lp_pos]. rewrite Hq'. cbn [bind life_run life_step]. rewrite Hset by reflexivity.
  cbn [parser_chain parser_apply bind] in Hch.
  (* the settings, one after the other: the parser without and with its pointers *)
  set (bare p0 := mk_parser (ps_args p0) (ps_style p0) (ps_allow_unregistered p0) None None (ps_additional p0) (ps_style_parser p0)).
  assert (Hloop : forall settings0 p0 self0, parser_chain p0 (map setting_call settings0) = Ok pp ->
            ps_desc p0 = Some (ods_list v) -> ps_positional p0 = Some pos -> bare p0 = bare self0 ->
            exists w1, life_run fuel (mk_lw ds qs (ps ++ [Some (mk_lp self0 (Some x) (Some q))]) ss ms gone) (map (LSetting n) settings0 ++ [LRun n])
                       = (map (fun _ => SEnd (Ok tt)) settings0 ++ [SEnd (Ok tt)], Ok w1)
              /\ nth_error (lw_sources w1) (List.length ss) = Some (Some (mk_ls (pr_options p) x (pr_prefix p)))
              /\ lw_descs w1 = ds /\ lw_maps w1 = ms).
  { induction settings0 as [|c cs IH]; intros p0 self0 Hc Hd Hp Hb.
    - cbn in Hc. injection Hc as ->. cbn [map app life_run life_step]. rewrite Hmade. cbn [bind lp_desc lp_pos lp_self].
      unfold life_parse. cbn [lp_desc lp_pos lp_self lw_descs lw_positionals fetch_opt]. rewrite Hx'. cbn [bind]. rewrite Hq'. cbn [bind].
      replace (mk_parser (ps_args self0) (ps_style self0) (ps_allow_unregistered self0) (Some (ods_list v)) (Some pos) (ps_additional self0) (ps_style_parser self0))
        with pp by (destruct pp, self0; unfold bare in Hb; cbn in *; congruence).
      rewrite Hrun. cbn [caught bind fst snd]. eexists. split; [reflexivity|]. cbn [lw_sources lw_descs lw_maps].
      rewrite nth_app_one, Nat.eqb_refl. repeat split.
    - cbn [map parser_chain] in Hc. destruct (parser_apply p0 (setting_call c)) as [p1|e|u|] eqn:E1; try discriminate Hc. cbn [bind] in Hc.
      assert (Hstep : exists self1, parser_apply self0 (setting_call c) = Ok self1 /\ bare p1 = bare self1
                        /\ ps_desc p1 = Some (ods_list v) /\ ps_positional p1 = Some pos).
      { destruct p0, self0. unfold bare in *. cbn in Hb, Hd, Hp |- *. injection Hb as -> -> -> -> ->.
        destruct c; cbn in *; try (injection E1 as <-; eexists; cbn; repeat split; assumption).
        destruct (set_style style) as [s1|e|u|]; try discriminate E1. cbn [bind] in *. injection E1 as <-. eexists. cbn. repeat split; assumption. }
      destruct Hstep as (self1 & Ha & Hb1 & Hd1 & Hp1).
      cbn [map app life_run life_step]. rewrite Hmade. cbn [bind lp_self lp_desc lp_pos]. rewrite Ha. cbn [caught bind fst snd]. rewrite Hset by reflexivity.
      destruct (IH p1 self1 Hc Hd1 Hp1 Hb1) as (w1 & -> & H). exists w1. split; [reflexivity|assumption]. }
  destruct (Hloop settings _ (new_parser args) Hch eq_refl eq_refl eq_refl) as (w1 & Hw & H). exists w1. split; [|exact H].
  cbn [lp_self] . rewrite Hw. reflexivity.
Qed.
Print Assumptions C100_runs.

(** C100. Calls on descriptions that have not been destroyed are those of C77: they treat descriptions as values, and adding a description
    that has options to itself does not return. *)
Theorem C100_descriptions : forall fuel w vals c,
  lw_descs w = map Some vals ->
  (forall a v, c = DAddGroup a a -> nth_error vals a = Some v -> ods_options v <> [] -> life_step fuel w (LDesc c) = NoFuel)
  /\ (forall vals', (forall a v, c = DAddGroup a a -> nth_error vals a = Some v -> ods_options v = []) -> value_step vals c = Ok vals' ->
        exists w', life_step fuel w (LDesc c) = Ok (w', []) /\ lw_descs w' = map Some vals'
          /\ lw_positionals w' = lw_positionals w /\ lw_parsers w' = lw_parsers w /\ lw_sources w' = lw_sources w /\ lw_maps w' = lw_maps w
          /\ lw_gone w' = lw_gone w).
Proof.
  intros fuel [ds qs ps ss ms gone] vals c E. cbn [lw_descs] in E. subst ds.
  assert (F : forall a v, nth_error vals a = Some v -> fetch (map Some vals) a = Ok v).
  { intros a v H. unfold fetch. rewrite nth_error_map, H. reflexivity. }
  assert (G : forall a v, set_cell (map Some vals) a (Some v) = map Some (set_cell vals a v)).
  { clear F. induction vals as [|x vals IH]; intros [|a] v; cbn; congruence. }
  split.
  - intros a v -> Hv Ho. cbn [life_step life_desc]. rewrite (F a v Hv). cbn [bind]. rewrite PeanoNat.Nat.eqb_refl.
    destruct (ods_options v); [contradiction|reflexivity].
  - intros vals' Hself H. destruct c as [caption ll md|b|a d|a b]; cbn [value_step] in H; cbn [life_step life_desc].
    + destruct (new_options caption ll md) as [v| | |]; cbn [bind] in *; try discriminate. injection H as <-.
      eexists. rewrite map_app. repeat split.
    + destruct (nth_error vals b) as [v|] eqn:Ev; cbn [bind] in H; [|discriminate]. injection H as <-. rewrite (F b v Ev). cbn [bind].
      eexists. rewrite map_app. repeat split.
    + destruct (nth_error vals a) as [v|] eqn:Ev; cbn [bind] in H; [|discriminate]. injection H as <-. rewrite (F a v Ev). cbn [bind].
      eexists. split; [reflexivity|]. cbn. rewrite G. repeat split.
    + destruct (nth_error vals a) as [v|] eqn:Ev; cbn [bind] in H; [|discriminate].
      destruct (nth_error vals b) as [v'|] eqn:Ev'; cbn [bind] in H; [|discriminate]. injection H as <-. rewrite (F a v Ev), (F b v' Ev'). cbn [bind].
      replace (Nat.eqb a b && _) with false.
      * eexists. split; [reflexivity|]. cbn. rewrite G. repeat split.
      * destruct (PeanoNat.Nat.eqb_spec a b) as [<-|]; [|reflexivity]. rewrite (Hself a v eq_refl Ev). reflexivity.
Qed.
Print Assumptions C100_descriptions.

(** C100. A lookup in maps that have not been destroyed is that of C78. *)
Theorem C100_lookup : forall fuel w objs,
  (forall i mo, nth_error objs i = Some mo -> nth_error (lw_maps w) i = Some (Some mo)) ->
  (forall m name v, map_index fuel objs m name = Ok v -> life_step fuel w (LGet m name) = Ok (w, [SValue v]))
  /\ (forall m name, map_index fuel objs m name = NoFuel -> life_step fuel w (LGet m name) = NoFuel).
Proof.
  intros fuel w objs H.
  assert (L : forall name fuel m, map_index fuel objs m name <> Undef UB_null -> life_index fuel (lw_maps w) m name = map_index fuel objs m name).
  { intros name. induction fuel0 as [|f IH]; intros m Hn; [reflexivity|]. cbn [map_index life_index] in *.
    destruct (nth_error objs m) as [mo|] eqn:E; [|contradiction]. unfold fetch. rewrite (H m mo E). cbn [bind].
    destruct (mo_next mo) as [b|]; [|reflexivity]. cbv zeta in *.
    destruct (any_empty (vv_value (vm_get (mo_map mo) name))); [apply IH; exact Hn|].
    destruct (vv_defaulted (vm_get (mo_map mo) name)); [|reflexivity]. rewrite IH; [reflexivity|].
    intros X. rewrite X in Hn. cbn [bind] in Hn. contradiction. }
  split; intros m name.
  - intros v E. destruct w as [ds qs ps ss ms gone]. cbn [life_step lw_maps] in *. rewrite L; rewrite E; [reflexivity|discriminate].
  - intros E. destruct w as [ds qs ps ss ms gone]. cbn [life_step lw_maps] in *. rewrite L; rewrite E; [reflexivity|discriminate].
Qed.
Print Assumptions C100_lookup.

(** An option whose value goes to the variable at 7, and one with a default. *)
Definition o_count := mk_od [] [$"count"] $"a number" (typed lex local (value_of_type (TLex 0) (Some 7))).
Definition o_size := mk_od [] [$"size"] $"a number"
  (typed lex local (mk_typed (TLex 0) None [] (Some (VLex 0 3, $"3")) None false false false false None)).
Definition reads_file (content : str) (ds : list option_description) : outcome parsed_options := parse_config_file content ds false.
Definition five : str := $"count=5" ++ [c_nl].

(** A description is made, used to read a file, and destroyed when the source has been stored; the variable is destroyed
    when it has been notified, and the second map when it is no longer looked at through the first. *)
Definition careful : list life_call :=
  [LDesc (DNew [] 80 40); LDesc (DAdd 0 o_count); LParse 0 (reads_file five);
   LNewMap; LNewMap; LStore 0 1 false; LEndDesc 0;
   LNext 0 (Some 1); LNotify 1; LEndVariable 7; LGet 0 $"count"; LEndMap 1].

Definition count_is_5 : variable_value := mk_vv (Some (VLex 0 5)) false (Some (od_sem o_count)).

Example C100_ex :
  exists w w', life_run 10 life_start careful = ([SEnd (Ok tt); SEnd (Ok tt); SNotified [EvStore 7 (VLex 0 5)] (Ok tt); SValue count_is_5], Ok w)
    /\ life_run 10 life_start (without_ends careful) = ([SEnd (Ok tt); SEnd (Ok tt); SNotified [EvStore 7 (VLex 0 5)] (Ok tt); SValue count_is_5], Ok w')
    /\ w <> w'.
Proof. eexists. eexists. split; [reflexivity|]. split; [reflexivity|]. discriminate. Qed.

(** One call more, and the description is missing, or the variable, or the map. *)
Example C100_ex_missing :
  snd (life_run 10 life_start (careful ++ [LStore 0 0 false])) = Undef UB_dangling
  /\ snd (life_run 10 life_start (removelast careful ++ [LNotify 1])) = Undef UB_dangling
  /\ snd (life_run 10 life_start (careful ++ [LGet 0 $"count"])) = Undef UB_dangling
  /\ snd (life_run 10 life_start (careful ++ [LEndDesc 0])) = Undef UB_dangling.
Proof. repeat split; reflexivity. Qed.

(** A parser and the two descriptions it points to. *)
Definition parsing : list life_call :=
  [LDesc (DNew [] 80 40); LDesc (DAdd 0 o_count); LNewPos; LAddPos 0 $"count" 1; LNewParser [$"5"];
   LOptions 0 0; LPositional 0 0].
Example C100_ex_parser :
  (exists w, life_run 10 life_start (parsing ++ [LRun 0; LEndPos 0; LNewMap; LStore 0 0 false; LEndDesc 0; LGet 0 $"count"])
             = ([SEnd (Ok tt); SEnd (Ok tt); SEnd (Ok tt); SValue count_is_5], Ok w))
  /\ life_run 10 life_start (parsing ++ [LEndPos 0; LRun 0]) = ([SEnd (Ok tt)], Undef UB_dangling)
  /\ life_run 10 life_start (parsing ++ [LEndDesc 0; LRun 0]) = ([SEnd (Ok tt)], Undef UB_dangling).
Proof. split; [eexists; reflexivity|]. split; reflexivity. Qed.

Example C100_ex_later :
  exists p1 p2 ds, new_options [] 80 40 = Ok ds /\ reads_file five (ods_list (ods_add ds o_count)) = Ok p1
    /\ reads_file five (ods_list (ods_add (ods_add ds o_count) o_size)) = Ok p2
    /\ pr_options p1 = pr_options p2 /\ pr_prefix p1 = pr_prefix p2 /\ pr_options p1 <> [].
Proof. do 3 eexists. split; [reflexivity|]. split; [reflexivity|]. split; [reflexivity|]. split; [reflexivity|]. split; [reflexivity|]. discriminate. Qed.

(** C100. So what a source will store is not settled when it is read. *)
Theorem C100_snapshot_refuted :
  ~ forall fuel before xs w x d s m utf8 w1 ys w2 zs,
      life_run fuel life_start before = (xs, Ok w) ->
      life_step fuel w (LStore s m utf8) = Ok (w1, ys) ->
      life_run fuel w [LDesc (DAdd x d); LStore s m utf8] = (zs, Ok w2) ->
      lw_maps w1 = lw_maps w2.
Proof.
  intros H.
  assert (E := H 10 [LDesc (DNew [] 80 40); LDesc (DAdd 0 o_count); LParse 0 (reads_file five); LNewMap] _ _ 0 o_size 0 0 false _ _ _ _
    eq_refl eq_refl eq_refl).
  cbn [lw_maps] in E. injection E as E. discriminate E.
Qed.
Print Assumptions C100_snapshot_refuted.

(** Calls on descriptions: a group, a description added to itself while it is empty and when it has an option. *)
Example C100_ex_descriptions :
  exists v vals w, new_options [] 80 40 = Ok v /\ value_step [v; ods_add v o_count] (DAddGroup 0 0) = Ok vals
    /\ lw_descs w = map Some [v; ods_add v o_count] /\ ods_options v = [] /\ ods_options (ods_add v o_count) <> []
    /\ life_step 10 w (LDesc (DAddGroup 1 1)) = NoFuel.
Proof.
  eexists. eexists. exists (mk_lw (map Some [mk_ods [] 80 40 [] []; ods_add (mk_ods [] 80 40 [] []) o_count]) [] [] [] [] []).
  split; [reflexivity|]. split; [reflexivity|]. split; [reflexivity|]. split; [reflexivity|]. split; [discriminate|reflexivity].
Qed.
