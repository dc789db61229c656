(** Proofs for C118. *)

From Coq Require Import List Ascii String NArith ZArith Bool Arith Lia.
From Verif Require Import Base BaseFacts Errors Spec Values OptDesc SpecLookup LookupFacts Positional Cmdline SpecCmdline CmdlineFacts Parsers ConfigFile
  SpecConfig ConfigFacts SpecReject SpecGrammar GrammarFacts SpecSay.
Import ListNotations.

(** ** Files *)

Lemma bracketed_ends s : bracketed s <-> exists t, s = c_lbr :: t ++ [c_rbr].
Proof. reflexivity. Qed.

Lemma not_bracketed n b2 b3 v : ~ bracketed (n ++ b2 ++ [c_eq] ++ b3 ++ v) -> ~ bracketed (n ++ [c_eq] ++ v).
Proof.
  intros H [t E]. apply H. destruct n as [|x n]; [discriminate|]. cbn in E. injection E as -> E.
  assert (V : v = [] \/ exists v' y, v = v' ++ [y]).
  { destruct v as [|a v0]; [now left|]. right. destruct (@exists_last _ (a :: v0)) as (v' & y & E'); [discriminate|]. rewrite E'. eauto. }
  destruct V as [->|(v' & y & ->)].
  - apply app_inj_tail in E. destruct E as [_ E]. discriminate.
  - assert (y = c_rbr).
    { change (n ++ c_eq :: v' ++ [y]) with (n ++ (c_eq :: v') ++ [y]) in E. rewrite app_assoc in E. apply app_inj_tail in E. tauto. }
    subst y. exists (n ++ b2 ++ [c_eq] ++ b3 ++ v'). cbn. rewrite <- !app_assoc. cbn. rewrite <- !app_assoc. reflexivity.
Qed.

Lemma assign_on_line l n v : line_is l (Assign n v) -> without c_nl l -> on_a_line n v.
Proof.
  intros H Hl. inversion H; subst. rewrite !without_app in Hl. destruct Hl as (_ & (N1 & _ & _ & _ & N2) & _).
  constructor; auto. eapply not_bracketed; eauto.
Qed.

Lemma section_on_line l s : line_is l (Section_ s) -> without c_nl l -> without c_hash s /\ without c_nl s.
Proof. intros H Hl. inversion H; subst. rewrite !without_app in Hl. tauto. Qed.

Lemma settings_cons n v u os kvs : settings os kvs -> settings (config_option n v u :: os) ((n, v) :: kvs).
Proof. unfold settings. cbn. now intros ->. Qed.

Lemma read_settings ds allow : forall sec es r, reads ds allow sec es r -> forall os ls, r = Ok os -> Forall2 line_is ls es -> no_newlines ls ->
  ((exists s, section_name s sec /\ without c_hash s /\ without c_nl s) -> exists kvs, settings os kvs
     /\ Forall (fun kv => allow = true \/ accepts ds (fst kv)) kvs /\ Forall sayable_in_section kvs)
  /\ (sec = [] -> exists k1 k2, settings os (k1 ++ k2)
     /\ Forall (fun kv => allow = true \/ accepts ds (fst kv)) (k1 ++ k2) /\ Forall sayable k1 /\ Forall sayable_in_section k2).
Proof.
  assert (As : forall sec n v u es l ls os, (allow = true \/ accepts ds (sec ++ n)) -> Forall2 line_is (l :: ls) (Assign n v :: es) -> no_newlines (l :: ls) ->
    ((exists s, section_name s sec /\ without c_hash s /\ without c_nl s) -> exists kvs, settings os kvs
       /\ Forall (fun kv => allow = true \/ accepts ds (fst kv)) kvs /\ Forall sayable_in_section kvs)
    /\ (sec = [] -> exists k1 k2, settings os (k1 ++ k2)
       /\ Forall (fun kv => allow = true \/ accepts ds (fst kv)) (k1 ++ k2) /\ Forall sayable k1 /\ Forall sayable_in_section k2) ->
    ((exists s, section_name s sec /\ without c_hash s /\ without c_nl s) -> exists kvs, settings (config_option (sec ++ n) v u :: os) kvs
       /\ Forall (fun kv => allow = true \/ accepts ds (fst kv)) kvs /\ Forall sayable_in_section kvs)
    /\ (sec = [] -> exists k1 k2, settings (config_option (sec ++ n) v u :: os) (k1 ++ k2)
       /\ Forall (fun kv => allow = true \/ accepts ds (fst kv)) (k1 ++ k2) /\ Forall sayable k1 /\ Forall sayable_in_section k2)).
  { intros sec n v u es l ls os Ha Hf Hn [H1 H2]. inversion Hf; subst. inversion Hn; subst.
    assert (L : on_a_line n v) by (eapply assign_on_line; eauto). split.
    - intros (s & Hs & Hh & Hl). destruct H1 as (kvs & K1 & K2 & K3); [now exists s|]. exists ((sec ++ n, v) :: kvs).
      split; [now apply settings_cons|]. split; (constructor; [|assumption]); [exact Ha|]. exists s, sec, n. auto.
    - intros ->. destruct H2 as (k1 & k2 & K1 & K2 & K3 & K4); [reflexivity|]. exists ((n, v) :: k1), k2.
      split; [now apply settings_cons|]. split; [constructor; assumption|]. split; [constructor; assumption|assumption]. }
  induction 1 as [sec|sec es r _ IH|s sec' sec es r Hs _ IH|sec es|sec n v es r Ha _ IH|sec n v es r Ha Hb _ IH|sec n v es _ _|sec s es];
    intros os ls E Hf Hn; try discriminate.
  - injection E as <-. split.
    + intros _. exists []. repeat split; constructor.
    + intros _. exists [], []. repeat split; constructor.
  - inversion Hf; subst. inversion Hn; subst. eapply IH; eauto.
  - inversion Hf; subst. inversion Hn; subst.
    match goal with H : line_is ?l (Section_ s), H' : without c_nl ?l |- _ => destruct (section_on_line l s H H') as [S1 S2] end.
    destruct (IH os _ eq_refl ltac:(eassumption) ltac:(eassumption)) as [IH1 _].
    assert (K : exists kvs, settings os kvs /\ Forall (fun kv => allow = true \/ accepts ds (fst kv)) kvs /\ Forall sayable_in_section kvs).
    { apply IH1. now exists s. }
    split; [auto|]. intros _. destruct K as (kvs & K1 & K2 & K3). exists [], kvs. repeat split; auto.
  - destruct r as [os'| | |]; try discriminate. injection E as <-. destruct ls as [|l ls]; [inversion Hf|].
    eapply As; eauto. inversion Hf; subst. inversion Hn; subst. eapply IH; eauto.
  - destruct r as [os'| | |]; try discriminate. injection E as <-. destruct ls as [|l ls]; [inversion Hf|].
    eapply As; eauto. inversion Hf; subst. inversion Hn; subst. eapply IH; eauto.
Qed.

Lemma accepts_dec ds n : all_named ds -> compatible ds -> accepts ds n \/ ~ accepts ds n.
Proof.
  intros Hn Hc. destruct (build_spec ds Hn) as [(_ & al & P & _ & H)|((p & q & H1 & H2 & H3 & H4) & _)].
  - destruct (allowed_option al P n) eqn:E; [left; now apply H|right]. intros A. apply H in A. congruence.
  - exfalso. apply H4. now apply Hc.
Qed.

Lemma say_line ds allow sec n v es os kvs : all_named ds -> compatible ds -> (allow = true \/ accepts ds (sec ++ n)) ->
  reads ds allow sec es (Ok os) -> settings os kvs ->
  exists os', reads ds allow sec (Assign n v :: es) (Ok os') /\ settings os' ((sec ++ n, v) :: kvs).
Proof.
  intros Hn Hc Ha Hr Hs. destruct (accepts_dec ds (sec ++ n) Hn Hc) as [A|A].
  - exists (config_option (sec ++ n) v false :: os). split; [exact (rd_assign ds allow sec n v es (Ok os) A Hr)|now apply settings_cons].
  - exists (config_option (sec ++ n) v true :: os). split; [|now apply settings_cons].
    destruct Ha as [Ha|Ha]; [|contradiction]. exact (rd_unregistered ds allow sec n v es (Ok os) A Ha Hr).
Qed.

Lemma line_without n v : on_a_line n v -> without c_nl (n ++ [c_eq] ++ v).
Proof. intros H. rewrite !without_app. repeat split; [apply H| |apply H]. intros [E|[]]. discriminate. Qed.

Lemma section_line s : without c_hash s -> line_is (c_lbr :: s ++ [c_rbr]) (Section_ s).
Proof.
  intros H. replace (c_lbr :: s ++ [c_rbr]) with ([] ++ ([c_lbr] ++ s ++ [c_rbr]) ++ [] ++ []) by (cbn; now rewrite app_nil_r).
  constructor; auto; try constructor; reflexivity.
Qed.

Lemma say_sections ds allow : all_named ds -> compatible ds -> forall kvs,
  Forall (fun kv => allow = true \/ accepts ds (fst kv)) kvs -> Forall sayable_in_section kvs ->
  exists ls es, no_newlines ls /\ Forall2 line_is ls es /\ forall sec, exists os, reads ds allow sec es (Ok os) /\ settings os kvs.
Proof.
  intros Hn Hc. induction kvs as [|[k v] kvs IH]; intros Ha Hs.
  - exists [], []. split; [constructor|]. split; [constructor|]. intros sec. exists []. split; [constructor|reflexivity].
  - inversion Ha; subst. inversion Hs as [|? ? (s & sec & n & S1 & S2 & S3 & E & L) Hs']; subst. cbn [fst snd] in *. subst k.
    destruct IH as (ls & es & I1 & I2 & I3); auto.
    exists ((c_lbr :: s ++ [c_rbr]) :: (n ++ [c_eq] ++ v) :: ls), (Section_ s :: Assign n v :: es). split; [|split].
    + constructor; [|constructor; [now apply line_without|exact I1]].
      change (c_lbr :: s ++ [c_rbr]) with ([c_lbr] ++ s ++ [c_rbr]). rewrite !without_app. repeat split; auto; intros [X|[]]; discriminate.
    + constructor; [now apply section_line|]. constructor; [|exact I2]. apply assign_line_is; apply L.
    + intros sec0. destruct (I3 sec) as (os & R & S). destruct (say_line ds allow sec n v es os kvs) as (os' & R' & S'); auto.
      exists os'. split; [|exact S']. eapply rd_section; eauto.
Qed.

Lemma say_file ds allow : all_named ds -> compatible ds -> forall k1 k2,
  Forall (fun kv => allow = true \/ accepts ds (fst kv)) (k1 ++ k2) -> Forall sayable k1 -> Forall sayable_in_section k2 ->
  exists ls es os, no_newlines ls /\ Forall2 line_is ls es /\ reads ds allow [] es (Ok os) /\ settings os (k1 ++ k2).
Proof.
  intros Hn Hc k1 k2. induction k1 as [|[n v] k1 IH]; cbn [app]; intros Ha H1 H2.
  - destruct (say_sections ds allow Hn Hc k2 Ha H2) as (ls & es & I1 & I2 & I3). destruct (I3 []) as (os & R & S). now exists ls, es, os.
  - inversion Ha; subst. inversion H1 as [|? ? L H1']; subst. destruct IH as (ls & es & os & I1 & I2 & I3 & I4); auto.
    destruct (say_line ds allow [] n v es os (k1 ++ k2)) as (os' & R' & S'); auto.
    exists ((n ++ [c_eq] ++ v) :: ls), (Assign n v :: es), os'.
    split; [constructor; [now apply line_without|exact I1]|]. split; [|split; [exact R'|exact S']].
    constructor; [|exact I2]. apply assign_line_is; apply L.
Qed.

Lemma settings_fun os k1 k2 : settings os k1 -> settings os k2 -> k1 = k2.
Proof.
  unfold settings. intros -> E. revert k2 E. induction k1 as [|[n v] k1 IH]; intros [|[n' v'] k2] E; cbn in E; try discriminate; auto.
  injection E as -> -> E. f_equal. auto.
Qed.

(** ** The environment *)

Lemma environment_settings mapper : forall vars os, Forall (fun nv => without c_eq (fst nv)) vars ->
  parse_environment_loop (environ vars) mapper = Ok os ->
  exists kvs, settings os kvs /\ Forall (fun kv => fst kv <> [] /\ exists n, without c_eq n /\ mapper n = Ok (fst kv)) kvs.
Proof.
  induction vars as [|[n v] vars IH]; intros os Hv; cbn [environ map parse_environment_loop].
  - intros [= <-]. exists []. split; [reflexivity|constructor].
  - inversion Hv; subst. cbn [fst snd] in *. rewrite env_split_var by assumption. cbn [bind fst snd].
    destruct (mapper n) as [m| | |] eqn:Em; cbn [bind]; try discriminate. fold (environ vars).
    destruct (parse_environment_loop (environ vars) mapper) as [os'| | |]; cbn [bind]; try discriminate. intros [= <-].
    destruct (IH os') as (kvs & K1 & K2); auto. destruct m as [|x m]; cbn [is_empty app].
    + now exists kvs.
    + exists ((x :: m, v) :: kvs). split; [unfold settings in *; cbn; now rewrite K1|]. constructor; [|exact K2]. split; [discriminate|]. now exists n.
Qed.

Lemma say_environment mapper : forall kvs, Forall (fun kv => fst kv <> [] /\ exists n, without c_eq n /\ mapper n = Ok (fst kv)) kvs ->
  exists vars os, Forall (fun nv => without c_eq (fst nv)) vars /\ parse_environment_loop (environ vars) mapper = Ok os /\ settings os kvs.
Proof.
  induction 1 as [|[m v] kvs (Hm & n & Hn & E) _ IH]; cbn [fst] in *.
  - exists [], []. split; [constructor|]. split; reflexivity.
  - destruct IH as (vars & os & H1 & H2 & H3). exists ((n, v) :: vars), (mk_popt m (-1) [v] [] false false :: os).
    split; [now constructor|]. split; [|unfold settings in *; cbn; now rewrite H3].
    cbn [environ map parse_environment_loop fst snd]. rewrite env_split_var by assumption. cbn [bind fst snd]. rewrite E. cbn [bind].
    fold (environ vars). rewrite H2. cbn [bind]. destruct m; [contradiction|reflexivity].
Qed.

(** ** The command line *)

Section CommandLine.
Variable c : cmdline.
Hypothesis Hp : plain c.
Hypothesis Hl : has (cl_style c) allow_long = true.

Lemma nothing_claimed tok : unclaimed c tok.
Proof. intros n v (f & E & _). destruct Hp as [_ H]. congruence. Qed.

Lemma empty_ordinary : ordinary c [].
Proof.
  split; [apply nothing_claimed|]. split; [intros (_ & n & _ & E); discriminate|].
  split; [intros n m (_ & _ & [[E _]|[E _]]) _; discriminate|].
  split; [intros (_ & _ & x & a & _ & E); discriminate|intros (_ & _ & x & a & E); discriminate].
Qed.

Lemma flag_exists key : exists b, case_flag c key b.
Proof. exists (po_ci (set_case_flag c (mk_popt key 0 [] [] false false))). now apply (case_flag_iff c (mk_popt key 0 [] [] false false)). Qed.

Lemma capacity_exists d n : fits d -> (vs_min (od_sem d) <= 1)%Z -> (Z.of_nat n <= vs_max (od_sem d))%Z -> exists k, capacity d n k.
Proof.
  intros [F|F] H1 H2.
  - destruct (Z.leb_spec (vs_max (od_sem d)) (vs_min (od_sem d))) as [L|L]; [exists (Some 0); apply rm_none; now left|].
    exists (Some (Z.to_nat (vs_max (od_sem d) - Z.of_nat n))). apply rm_limited; [|lia].
    split; [exact L|]. unfold INT_MAX, UINT_MAX in *. lia.
  - exists None. apply rm_unlimited; [|exact F]. rewrite F. unfold UINT_MAX. lia.
Qed.

Lemma say_option key v is is' : takes_value c key -> Forall fits (cl_desc c) -> Forall sensible (cl_desc c) ->
  gathered c is is' -> ~ starts_with_argument is ->
  exists args items ts, List.length args <= 2
    /\ (forall rest items', consists_of c rest items' -> consists_of c (args ++ rest) (items ++ items'))
    /\ (exists items0, items ++ is = Option_ key false (fst items0) (snd items0) :: tl (items ++ is))
    /\ gathered c (items ++ is) (Option_ key false [v] ts :: is').
Proof.
  intros (n & d & Hn & He & Hd & Hk & Hkd & Hmin & Hmax) Hf Hs Hg Ha.
  assert (Fd : fits d) by (rewrite Forall_forall in Hf; apply Hf; eapply lookup_In; eauto).
  destruct (capacity_exists d 1 Fd Hmin) as [k Hcap]; [lia|].
  destruct v as [|x v].
  - destruct (Z.eq_dec (vs_min (od_sem d)) 1) as [M|M].
    + exists [dashdash ++ n; []], [Option_ key false [[]] [dashdash ++ n; []]], [dashdash ++ n; []].
      split; [cbn; lia|]. split; [|split].
      * intros rest items' H. cbn [app]. apply (co_option c (dashdash ++ n) ([] :: rest) [mk_mention n [] [dashdash ++ n]] [Option_ key false [[]] [dashdash ++ n; []]] rest items').
        -- apply sf_long; [apply nothing_claimed|exact Hl|now apply lw_bare].
        -- apply ac_last. apply (cm_known c n [] [dashdash ++ n] d key [[]] rest); auto; [cbn; lia|].
           constructor; [left; apply empty_ordinary|constructor].
        -- exact H.
      * exists ([[]], [dashdash ++ n; []]). reflexivity.
      * cbn [app]. pose proof (ga_known c key false [[]] [dashdash ++ n; []] d [] k is is' Hkd Hcap) as G. cbn [map app List.length] in G.
        rewrite ?app_nil_r in G. apply G; auto. intros; lia.
    + exists [dashdash ++ n; []], [Option_ key false [] [dashdash ++ n]; Argument [] []], [dashdash ++ n; []].
      split; [cbn; lia|]. split; [|split].
      * intros rest items' H. cbn [app].
        apply (co_option c (dashdash ++ n) ([] :: rest) [mk_mention n [] [dashdash ++ n]] [Option_ key false [] [dashdash ++ n]] ([] :: rest) (Argument [] [] :: items')).
        -- apply sf_long; [apply nothing_claimed|exact Hl|now apply lw_bare].
        -- apply ac_last. apply (cm_known c n [] [dashdash ++ n] d key [] ([] :: rest)); auto; [cbn; lia].
        -- apply co_argument; [apply empty_ordinary|discriminate|exact H].
      * exists ([], [dashdash ++ n]). reflexivity.
      * cbn [app]. destruct (capacity_exists d 0 Fd Hmin) as [k0 Hcap0]; [lia|].
        apply (ga_known c key false [] [dashdash ++ n] d [([], [])] k0 is is' Hkd Hcap0); auto.
        intros limit ->. inversion Hcap0; subst; cbn in *; lia.
  - exists [dashdash ++ n ++ [c_eq] ++ x :: v], [Option_ key false [x :: v] [dashdash ++ n ++ [c_eq] ++ x :: v]], [dashdash ++ n ++ [c_eq] ++ x :: v].
    split; [cbn; lia|]. split; [|split].
    + intros rest items' H. cbn [app].
      apply (co_option c (dashdash ++ n ++ [c_eq] ++ x :: v) rest [mk_mention n [x :: v] [dashdash ++ n ++ [c_eq] ++ x :: v]]
        [Option_ key false [x :: v] [dashdash ++ n ++ [c_eq] ++ x :: v]] rest items').
      * apply sf_long; [apply nothing_claimed|exact Hl|]. apply lw_value; [exact He|discriminate].
      * apply ac_last.
        pose proof (cm_known c n [x :: v] [dashdash ++ n ++ [c_eq] ++ x :: v] d key [] rest) as G. rewrite ?app_nil_r in G. cbn [app] in G. apply G; auto.
        -- intros _. lia.
        -- cbn. lia.
      * exact H.
    + exists ([x :: v], [dashdash ++ n ++ [c_eq] ++ x :: v]). reflexivity.
    + cbn [app].
      pose proof (ga_known c key false [x :: v] [dashdash ++ n ++ [c_eq] ++ x :: v] d [] k is is' Hkd Hcap) as G. cbn [map app List.length] in G.
      rewrite ?app_nil_r in G. apply G; auto. intros; lia.
Qed.

Lemma say_command_line : Forall fits (cl_desc c) -> Forall sensible (cl_desc c) -> forall kvs, Forall (fun kv => takes_value c (fst kv)) kvs ->
  exists args is is' os, List.length args <= 2 * List.length kvs /\ consists_of c args is /\ gathered c is is' /\ ~ starts_with_argument is
    /\ (forall k, returned c k is' os) /\ settings os kvs /\ Forall (fun o => po_pos o = (-1)%Z /\ po_unreg o = false) os.
Proof.
  intros Hf Hs. induction kvs as [|[key v] kvs IH]; intros H.
  - exists [], [], [], []. split; [cbn; lia|]. split; [constructor|]. split; [constructor|]. split; [intros (? & ? & ? & E); discriminate|].
    split; [constructor|]. split; [reflexivity|constructor].
  - inversion H; subst. cbn [fst] in *. destruct IH as (args & is & is' & os & I1 & I2 & I3 & I4 & I5 & I6 & I7); auto.
    destruct (say_option key v is is') as (args1 & items & ts & J1 & J2 & (i0 & J3) & J4); auto.
    destruct (flag_exists key) as [b Hb].
    exists (args1 ++ args), (items ++ is), (Option_ key false [v] ts :: is'), (mk_popt key (-1) [v] ts false b :: os).
    split; [rewrite app_length; cbn [List.length]; lia|]. split; [now apply J2|]. split; [exact J4|].
    split; [intros (? & ? & ? & E); rewrite J3 in E; discriminate|]. split; [intros k; apply rt_option; auto|].
    split; [unfold settings in *; cbn; now rewrite I6|]. constructor; [now split|exact I7].
Qed.

End CommandLine.
