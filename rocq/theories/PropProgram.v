(** C105: whole programs. *)

From Coq Require Import List Ascii String NArith ZArith Bool Lia.
From Verif Require Import Base Errors Spec BaseFacts Values OptDesc SpecLookup LookupFacts Positional Cmdline SpecCmdline CmdlineFacts
  Parsers ConfigFile SpecConfig ConfigFacts VarMap SpecStore StoreFacts SemFacts SpecErrors SpecProgram ProgramFacts Samples.
From Verif Require SpecWide PropCmdline PropCmdline2 PropConfig PropStore PropErrors PropWide.
Import ListNotations.

Lemma ascii7_app a b : ascii7 (a ++ b) -> ascii7 a /\ ascii7 b.
Proof. intros H. apply Forall_app in H. exact H. Qed.

(** ** Reading one source *)

Definition ascii_values (os : list popt) : Prop := Forall (fun o => Forall ascii7 (po_value o)) os.

(** It gives options, with ASCII values if the source is ASCII, or an exception. *)
Definition reads_well (ds : list option_description) (i : input) (r : outcome parsed_options) : Prop :=
  (exists os prefix, r = Ok (mk_parsed os (Some ds) prefix) /\ (ascii_input i -> ascii_values os)) \/ exists e, r = Throw e.

Lemma library_sensible t s : library_semantic t s ->
  (0 <= vs_min s)%Z /\ (0 <= vs_max s <= UINT_MAX)%Z /\ (vs_max s <= INT_MAX \/ vs_max s = UINT_MAX)%Z.
Proof.
  intros [(lc & ul & tv & -> & _)|(_ & ul & z & -> & _)]; cbn; unfold tv_min_tokens, tv_max_tokens, UINT_MAX, INT_MAX.
  - destruct (_ || _), (tv_multitoken tv), (tv_zero_tokens tv); lia.
  - destruct z; lia.
Qed.

Lemma supplied_ascii c args vs : SpecWide.supplies c args vs -> Forall ascii7 args -> Forall ascii7 vs.
Proof.
  induction 1 as [|tok args vs _ IH|tok args vs _ IH|tok v args vs _ Hv _ IH]; intros H; auto; pose proof (Forall_inv H) as Ht; pose proof (Forall_inv_tail H) as Ha; auto.
  constructor; auto. destruct Hv as [n v _ _ ->|x v _ _ _ ->|flags x v _ _ _ _ _ ->|x v _ _ ->|b n v _ _ _ ->];
    repeat (apply ascii7_app in Ht as [_ Ht]); exact Ht.
Qed.

Lemma arguments_read_well ds c args : orderly ds -> suitable ds (Arguments c args) -> reads_well ds (Arguments c args) (read_input ds (Arguments c args)).
Proof.
  intros Ho (Hd & Hs & Ha & Hl & Hc). cbn [read_input]. unfold parser_run.
  assert (Hlib := or_library ds Ho). assert (Hlong := or_long ds Ho). assert (Hnames := or_names ds Ho).
  assert (D : defined (parse c args)).
  { apply PropCmdline2.C27_no_undefined_behaviour; rewrite ?Hd; auto.
    - destruct Hc as [Hc|[[Hc _] Ht]]; [now left|right]. split; [assumption|]. split; [|assumption].
      apply Forall_forall. intros d Hin. rewrite Forall_forall in Hc. specialize (Hc d Hin). unfold all_names in Hc.
      destruct (od_short d); [split; [assumption|constructor]|]. split; [now apply Forall_inv_tail in Hc|now apply Forall_inv in Hc].
    - apply Forall_forall. intros d Hin. rewrite Forall_forall in Hlong, Hnames. specialize (Hlong d Hin). specialize (Hnames d Hin).
      unfold has_name. destruct (od_longs d) as [|l ls]; [contradiction|]. now apply Forall_inv in Hnames as [? _].
    - apply Forall_forall. intros d Hin. rewrite Forall_forall in Hlib. destruct (Hlib d Hin) as [t Ht].
      destruct (library_sensible _ _ Ht) as (H1 & H2 & H3). split; [split; assumption|exact H3].
    - intros d typed key Hlk Hk. unfold lookup in *. rewrite Hd in *. apply find_found_In in Hlk.
      assert (K := is_key_unique Hk). subst key. apply (key_is_long ds d typed Ho Hlk) in Hk as [Hk _].
      exists (Some d). unfold lookup. rewrite Hd. apply key_unambiguous; auto. destruct Hc as [[H1 H2]|[Hc _]]; auto. }
  assert (N := proj1 (PropCmdline.C11_run_terminates c args Hs)). assert (V := PropWide.C61_values_from_tokens c args).
  assert (P : run (List.length args) c args = parse c args) by reflexivity. rewrite P.
  destruct (parse c args) as [os|e|u|] eqn:E; cbn [bind].
  - left. exists os, (cl_prefix c). rewrite Hd. split; [reflexivity|]. intros A. cbn in A.
    specialize (V os (conj Hs Ha) eq_refl). apply supplied_ascii in V; [|exact A]. unfold SpecWide.values_in_order in V.
    clear -V. unfold ascii_values. induction os as [|o os IH]; [constructor|]. cbn in V. apply Forall_app in V as [V1 V2]. constructor; auto.
  - right. eauto.
  - exfalso. exact (D u eq_refl).
  - contradiction.
Qed.

Lemma entry_ascii l n v : line_is l (Assign n v) -> ascii7 l -> ascii7 v.
Proof.
  intros H Ha. inversion H as [| |b1 n' b2 b3 v' b4 cm H1 H2 H3 H4 H5 H6 H7 H8 H9 H10 H11|]; subst.
  apply ascii7_app in Ha as [_ Ha]. apply ascii7_app in Ha as [Ha _]. do 4 (apply ascii7_app in Ha as [_ Ha]). exact Ha.
Qed.

Lemma reads_ends ds allow : forall sec es r, reads ds allow sec es r -> ~ In (Section_ []) es ->
  (exists os, r = Ok os /\ ((forall n v, In (Assign n v) es -> ascii7 v) -> ascii_values os)) \/ exists e, r = Throw e.
Proof.
  intros sec es r H. induction H as [sec|sec es r H IH|s sec' sec es r Hs H IH|sec es|sec n v es r Hacc H IH|sec n v es r Hacc Hal H IH|sec n v es Hacc Hal|sec s es]; intros Hn.
  - left. exists []. split; [reflexivity|]. constructor.
  - destruct IH as [(os & -> & A)|[e ->]]; [intros Hi; apply Hn; now right|left; exists os; split; [reflexivity|]; intros G; apply A; intros; apply (G n v); now right|eauto].
  - destruct IH as [(os & -> & A)|[e ->]]; [intros Hi; apply Hn; now right|left; exists os; split; [reflexivity|]; intros G; apply A; intros; apply (G n v); now right|eauto].
  - exfalso. apply Hn. now left.
  - destruct IH as [(os & -> & A)|[e ->]]; [intros Hi; apply Hn; now right| |right; exists e; reflexivity]. left. eexists. split; [reflexivity|].
    intros G. constructor; [cbn; constructor; [apply (G n v); now left|constructor]|]. apply A. intros n' v' Hi. apply (G n' v'). now right.
  - destruct IH as [(os & -> & A)|[e ->]]; [intros Hi; apply Hn; now right| |right; exists e; reflexivity]. left. eexists. split; [reflexivity|].
    intros G. constructor; [cbn; constructor; [apply (G n v); now left|constructor]|]. apply A. intros n' v' Hi. apply (G n' v'). now right.
  - right. eauto.
  - right. eauto.
Qed.

Lemma lines_ascii content ls : lines_of content ls -> ascii7 content -> Forall ascii7 ls.
Proof.
  assert (U : forall ls, ascii7 (unlines ls) -> Forall ascii7 ls).
  { induction ls0 as [|l ls0 IH]; intros H; [constructor|]. cbn in H. apply ascii7_app in H as [H1 H2]. constructor; [now apply ascii7_app in H1 as [H1 _]|]. exact (IH H2). }
  intros [_ [->|(ls' & l & -> & _ & ->)]] H; [auto|]. apply ascii7_app in H as [H1 H2]. apply Forall_app. split; [auto|]. constructor; [exact H2|constructor].
Qed.

Lemma file_reads_well ds allow content : orderly ds -> suitable ds (File allow content) ->
  reads_well ds (File allow content) (read_input ds (File allow content)).
Proof.
  intros Ho Hs. cbn [suitable read_input] in *. assert (Hlong := or_long ds Ho). assert (Hnames := or_names ds Ho). rewrite Forall_forall in Hlong, Hnames.
  assert (A : all_named ds).
  { apply Forall_forall. intros d Hd. specialize (Hlong d Hd). specialize (Hnames d Hd). unfold main_name. destruct (od_longs d) as [|l ls]; [contradiction|].
    exists l. split; [exists ls; reflexivity|]. now apply Forall_inv in Hnames as [? _]. }
  assert (C : compatible ds).
  { intros p q (d & Hd & ls & E) _ _. exfalso. specialize (Hnames d Hd). rewrite E in Hnames. apply Forall_inv in Hnames as [_ Hst]. apply Hst.
    apply in_or_app. right. now left. }
  destruct (PropConfig.C58_files_have_lines content) as (ls & Hls & _). specialize (Hs ls Hls).
  assert (E : exists es, Forall2 line_is ls es).
  { clear. induction ls as [|l ls [es IH]]; [exists []; constructor|]. destruct (PropConfig.C58_lines_have_one_meaning l) as (e & He & _).
    exists (e :: es). constructor; assumption. }
  destruct E as [es Hes]. destruct (PropConfig.C58_meaning ds allow content ls es A C Hls Hes) as (r & Hr & ->).
  apply reads_ends in Hr.
  - destruct Hr as [(os & -> & V)|[e ->]]; [|right; exists e; reflexivity]. left. exists os, 0%Z. split; [reflexivity|]. intros Ha. cbn in Ha. apply V.
    apply (lines_ascii _ _ Hls) in Ha. clear -Ha Hes. intros n v Hi. induction Hes as [|l e ls es Hl _ IH]; [destruct Hi|].
    destruct Hi as [->|Hi]; [|apply IH; [now apply Forall_inv_tail in Ha|assumption]]. eapply entry_ascii; [exact Hl|]. now apply Forall_inv in Ha.
  - clear -Hs Hes. intros Hi. induction Hes as [|l e ls es Hl _ IH]; [destruct Hi|]. destruct Hi as [->|Hi]; [exact (Hs l (or_introl eq_refl) Hl)|].
    apply IH; [intros l' Hl'; apply Hs; now right|assumption].
Qed.

Lemma environment_reads_well ds mapper env : suitable ds (Environment mapper env) ->
  reads_well ds (Environment mapper env) (read_input ds (Environment mapper env)).
Proof.
  intros [(vars & -> & Hv) Hm]. cbn [read_input]. unfold parse_environment.
  assert (G : (exists os, parse_environment_loop (environ vars) mapper = Ok os /\ (Forall ascii7 (environ vars) -> ascii_values os))
              \/ exists e, parse_environment_loop (environ vars) mapper = Throw e).
  { induction Hv as [|[n v] vars Hn Hv IH]; [left; exists []; split; [reflexivity|constructor]|].
    cbn [environ map parse_environment_loop fst snd] in *. rewrite (env_split_var n v Hn). cbn [bind fst snd].
    destruct (Hm n) as [[m ->]|[e ->]]; cbn [bind]; [|right; eauto].
    destruct IH as [(os & E & A)|[e E]]; unfold environ in E; rewrite E; cbn [bind]; [|right; eauto]. left. eexists. split; [reflexivity|].
    intros H. pose proof (Forall_inv H) as H1. pose proof (Forall_inv_tail H) as H2. do 2 (apply ascii7_app in H1 as [_ H1]).
    unfold ascii_values. apply Forall_app. split; [|apply A; exact H2]. destruct (is_empty m); constructor; [|constructor]. cbn. constructor; [exact H1|constructor]. }
  destruct G as [(os & -> & A)|[e ->]]; [left; exists os, 0%Z; split; [reflexivity|exact A]|right; exists e; reflexivity].
Qed.

Lemma input_reads_well ds i : orderly ds -> suitable ds i -> reads_well ds i (read_input ds i).
Proof. destruct i; [apply arguments_read_well|apply file_reads_well|intros _; apply environment_reads_well]. Qed.

(** ** Storing and notifying *)

(** The call returns or throws. *)
Definition ends {A} (r : outcome A) : Prop := (exists a, r = Ok a) \/ exists e, r = Throw e.

Lemma store_ends ds ty i os prefix vm vm' r :
  orderly ds -> (forall name d, find ds name false false false = Ok d \/ (In d ds /\ is_key d [] name) -> library_semantic (ty name) (od_sem d)) ->
  (no_booleans ds \/ ascii_input i) -> (ascii_input i -> ascii_values os) -> typed_map ty (vm_map vm) ->
  store (mk_parsed os (Some ds) prefix) vm false = (vm', r) -> typed_map ty (vm_map vm') /\ ends r.
Proof.
  intros Ho Hty Hb Ha Hm Es. pose proof Es as E'. apply (store_typed ty) in Es; [|cbn; intros ds' name d [= <-]; apply Hty|exact Hm].
  destruct Es as [Hm' Hu]. split; [exact Hm'|].
  assert (C : calm r).
  { replace r with (snd (store (mk_parsed os (Some ds) prefix) vm false)) by now rewrite E'. apply store_calm. intros o d v Hi Hf.
    destruct Hb as [Hb|Hb].
    - assert (Hin : In d ds) by (unfold find in Hf; destruct (find_nothrow ds (po_key o) false false false) as [[x|]| | |] eqn:En; try discriminate;
        injection Hf as <-; now apply find_found_In in En).
      unfold no_booleans in Hb. rewrite Forall_forall in Hb. destruct (Hb d Hin) as (t & Ht & Hn). apply (library_calm t); auto.
    - apply (library_calm (ty (po_key o))); [apply Hty; now left|]. right. specialize (Ha Hb). unfold ascii_values in Ha. rewrite Forall_forall in Ha. now apply Ha. }
  destruct C as [C1 C2]. destruct r as [a|e|u|]; [left; eauto|right; eauto| |contradiction].
  destruct (Hu u eq_refl) as [Hn| ->]; [discriminate|contradiction].
Qed.

Lemma load_ends ds ty : orderly ds ->
  (forall name d, find ds name false false false = Ok d \/ (In d ds /\ is_key d [] name) -> library_semantic (ty name) (od_sem d)) ->
  forall inputs vm, Forall (suitable ds) inputs -> (no_booleans ds \/ Forall ascii_input inputs) -> typed_map ty (vm_map vm) ->
  ends (snd (load ds inputs vm))
  /\ exists h, calls vm h (fst (load ds inputs vm)) /\ forall p u, In (p, u) h -> pr_desc p = Some ds.
Proof.
  intros Ho Hty. induction inputs as [|i inputs IH]; intros vm Hs Hb Hm; cbn [load].
  - split; [left; exists tt; reflexivity|]. exists []. split; [constructor|intros ? ? []].
  - assert (Hb1 : no_booleans ds \/ ascii_input i) by (destruct Hb as [?|Hb]; [now left|right; now apply Forall_inv in Hb]).
    assert (Hb2 : no_booleans ds \/ Forall ascii_input inputs) by (destruct Hb as [?|Hb]; [now left|right; now apply Forall_inv_tail in Hb]).
    destruct (input_reads_well ds i Ho (Forall_inv Hs)) as [(os & prefix & -> & Ha)|[e ->]].
    2:{ cbn. split; [right; eauto|]. exists []. split; [constructor|intros ? ? []]. }
    destruct (store (mk_parsed os (Some ds) prefix) vm false) as [vm' r] eqn:Es.
    destruct (store_ends ds ty i os prefix vm vm' r Ho Hty Hb1 Ha Hm Es) as [Hm' [[a ->]|[e ->]]].
    + destruct (IH vm' (Forall_inv_tail Hs) Hb2 Hm') as [E (h & Hc & Hd)]. split; [exact E|].
      exists ((mk_parsed os (Some ds) prefix, false) :: h). split; [econstructor; [exact Es|left; now destruct a|exact Hc]|].
      intros p u [[= <- <-]|Hi]; [reflexivity|eauto].
    + split; [right; exists e; reflexivity|]. exists [(mk_parsed os (Some ds) prefix, false)].
      split; [econstructor; [exact Es|right; eauto|constructor]|]. intros p u [E'|[]]; injection E' as <- <-; reflexivity.
Qed.

Lemma required_ends req m : ends (check_required req m).
Proof. destruct (check_required_spec m req) as [[-> _]|(r1 & k & disp & r2 & _ & -> & _)]; [left|right]; eauto. Qed.

Lemma notify_ends h vm : calls vm_new h vm -> library_only h -> ends (snd (notify vm)).
Proof.
  intros Hc Hl. assert (D : forall u, snd (notify vm) <> Undef u) by (intros u; eapply notify_defined; eauto).
  assert (N : snd (notify vm) <> NoFuel).
  { assert (Hm : sound_map (vm_map vm)) by (eapply calls_sound; eauto; intros name v s E; discriminate).
    destruct (calls_sorted _ _ _ Hc) as [Hs _]; [constructor|constructor|].
    unfold notify. destruct (required_ends (vm_required vm) (vm_map vm)) as [[a ->]|[e ->]]; [|discriminate].
    assert (G : forall m, (forall k v s, In (k, v) m -> vv_sem v = Some s -> exists t, library_semantic t s) -> snd (run_notify m) <> NoFuel).
    { induction m as [|[k v] m IH]; intros H; cbn [run_notify]; [discriminate|].
      assert (IH' : snd (run_notify m) <> NoFuel) by (apply IH; intros k' v' s Hi; apply (H k' v'); now right).
      destruct (vv_sem v) as [s|] eqn:Ev; [|exact IH'].
      assert (L : snd (vs_notify s (vv_value v)) <> NoFuel).
      { destruct (H k v s (or_introl eq_refl) Ev) as [t [(lc & ul & tv & -> & _)|(_ & ul & z & -> & _)]]; cbn [typed untyped vs_notify]; [|discriminate].
        unfold tv_notify. repeat match goal with |- context [match ?x with _ => _ end] => destruct x; cbn [snd]; try discriminate end. }
      destruct (vs_notify s (vv_value v)) as [ev r]. cbn [snd] in L. destruct r; [|exact L..].
      destruct (run_notify m) as [ev' r']. exact IH'. }
    apply G. intros k v s Hi Hv. apply (proj2 (sm_find_In_pair k v Hs)) in Hi. destruct (Hm k v s Hi Hv) as (t & x & Ht & _). eauto. }
  destruct (snd (notify vm)) as [a|e|u|]; [left; eauto|right; eauto|exfalso; exact (D u eq_refl)|contradiction].
Qed.

(** The semantics in the map are those of the options. *)
Definition from_options (ds : list option_description) (m : smap variable_value) : Prop :=
  forall name v s, sm_find name m = Some v -> vv_sem v = Some s -> exists d, In d ds /\ s = od_sem d.

Lemma from_options_set ds m name v : from_options ds m -> (forall s, vv_sem v = Some s -> exists d, In d ds /\ s = od_sem d) ->
  from_options ds (sm_set name v m).
Proof. intros Hm Hv n x s E. rewrite sm_find_set in E. destruct (str_eqb n name); [injection E as <-; apply Hv|eapply Hm; exact E]. Qed.

Lemma store_from_options ds os prefix vm : from_options ds (vm_map vm) ->
  from_options ds (vm_map (fst (store (mk_parsed os (Some ds) prefix) vm false))).
Proof.
  intros Hm. unfold store. cbn [pr_desc pr_prefix pr_options].
  assert (G : forall os m nf, from_options ds m -> from_options ds (fst (fst (store_options ds prefix (vm_final vm) false os m nf)))).
  { clear. induction os as [|o os IH]; intros m nf Hm; cbn [store_options]; [exact Hm|]. cbv zeta.
    destruct (is_empty (po_key o)); [auto|]. destruct (po_unreg o); [auto|]. destruct (ss_mem (po_key o) (vm_final vm)); [auto|].
    destruct (find ds (po_key o) false false false) as [d|e|u|] eqn:Ed; [|exact Hm..].
    assert (Hin : In d ds) by (unfold find in Ed; destruct (find_nothrow ds (po_key o) false false false) as [[x|]| | |] eqn:En; try discriminate;
      injection Ed as <-; now apply find_found_In in En).
    destruct (vs_parse _ _ _ _) as [a r]. destruct r as [x|e|u|]; [|cbn [fst]|exact Hm..].
    - apply IH, from_options_set; [exact Hm|]. cbn. intros s [= <-]. eauto.
    - apply from_options_set; [exact Hm|]. cbn. intros s. destruct (sm_find (po_key o) m) as [v|] eqn:Ev; [|discriminate].
      destruct (vv_defaulted v); [discriminate|]. eapply Hm; exact Ev. }
  specialize (G os (vm_map vm) [] Hm). destruct (store_options _ _ _ _ _ _ _) as [[m nf] r]. cbn [fst] in G.
  destruct r as [[]|e|u|]; cbn [fst vm_map]; try exact G.
  assert (F : forall l m req, incl l ds -> from_options ds m -> from_options ds (fst (store_defaults l prefix m req))).
  { clear. induction l as [|d l IH]; intros m req Hi Hm; cbn [store_defaults]; [exact Hm|]. cbv zeta.
    assert (Hi' : incl l ds) by (intros x Hx; apply Hi; now right).
    destruct (is_empty (od_key d [])); [auto|]. apply IH; [exact Hi'|]. destruct (sm_mem (od_key d []) m); [exact Hm|].
    destruct (vs_default (od_sem d)); [|exact Hm]. apply from_options_set; [exact Hm|]. cbn. intros s [= <-]. exists d. split; [apply Hi; now left|reflexivity]. }
  specialize (F ds m (vm_required vm) (incl_refl _) G). destruct (store_defaults _ _ _ _) as [m' req]. exact F.
Qed.

(** ** C105 *)

(** C105. A program with orderly options that reads suitable sources ends in one of two ways, whatever the sources contain: all values are
    stored and notified, or there is an exception of the library or of a function of the user.  It executes no undefined behaviour and
    it terminates. *)
Theorem C105_defined : forall ds inputs,
  orderly ds -> Forall (suitable ds) inputs -> (no_booleans ds \/ Forall ascii_input inputs) ->
  snd (main_program ds inputs) = Ok tt \/ exists e, snd (main_program ds inputs) = Throw e.
Proof.
  intros ds inputs Ho Hs Hb. destruct (types_exist ds Ho) as [ty Hty].
  assert (Hm : typed_map ty (vm_map vm_new)) by (intros name v H; discriminate).
  destruct (load_ends ds ty Ho Hty inputs vm_new Hs Hb Hm) as [E (h & Hc & Hd)].
  unfold main_program. destruct (load ds inputs vm_new) as [vm r]. cbn [fst snd] in *. destruct E as [[a ->]|[e ->]]; [|right; exists e; reflexivity].
  assert (L : library_only h).
  { intros p u ds' d Hi Hp Hin. rewrite (Hd p u Hi) in Hp. injection Hp as <-. assert (L := or_library ds Ho). rewrite Forall_forall in L. now apply L. }
  destruct (notify_ends h vm Hc L) as [[[] E]|E]; [left|right]; exact E.
Qed.
Print Assumptions C105_defined.

(** C105. and the message of the exception can be composed, if the exceptions of the user's functions have one. *)
Theorem C105_messages : forall ds inputs e,
  Forall (fun d => polite (od_sem d)) ds ->
  (forall c args, In (Arguments c args) inputs -> cl_style_parser c = None /\ cl_desc c = ds) ->
  (forall mapper env, In (Environment mapper env) inputs -> forall n, throws_showable (mapper n)) ->
  snd (main_program ds inputs) = Throw e -> showable e.
Proof.
  intros ds inputs e Hp Ha He. unfold main_program. rewrite Forall_forall in Hp.
  assert (G : forall inputs vm, (forall c args, In (Arguments c args) inputs -> cl_style_parser c = None /\ cl_desc c = ds) ->
    (forall mapper env, In (Environment mapper env) inputs -> forall n, throws_showable (mapper n)) ->
    sm_sorted (vm_map vm) -> sm_sorted (vm_required vm) -> from_options ds (vm_map vm) ->
    throws_showable (snd (load ds inputs vm)) /\ sm_sorted (vm_map (fst (load ds inputs vm))) /\ from_options ds (vm_map (fst (load ds inputs vm)))).
  { clear -Hp. induction inputs as [|i inputs IH]; intros vm Ha He Hs Hr Hm; cbn [load]; [split; [intros e [=]|split; assumption]|].
    assert (R : throws_showable (read_input ds i) /\ forall p, read_input ds i = Ok p ->
              exists os z, p = mk_parsed os (Some ds) z /\ In z [0; allow_long; allow_long_disguise; allow_dash_for_short; allow_slash_for_short]%Z).
    { destruct i as [c args|allow content|mapper env]; cbn [read_input].
      - destruct (Ha c args (or_introl eq_refl)) as [Hc <-]. unfold parser_run.
        assert (T := PropErrors.C51_thrown_by_parser (List.length args) c args). rewrite Hc in T. specialize (T ltac:(discriminate)).
        destruct (run (List.length args) c args) as [os|e|u|]; cbn [bind]; (split; [intros x Hx; try discriminate; injection Hx as <-; now apply T|]); intros p [= <-].
        exists os, (cl_prefix c). split; [reflexivity|]. apply ThrowFacts.valid_cl_prefix.
      - split; [apply PropErrors.C51_thrown_by_config_file|]. intros p Hpp. unfold parse_config_file in Hpp.
        repeat (apply bind_Ok in Hpp; destruct Hpp as (? & ? & Hpp)). injection Hpp as <-. eexists _, 0%Z. split; [reflexivity|now left].
      - split; [apply PropErrors.C51_thrown_by_environment; intros s; apply (He mapper env); now left|]. intros p Hpp. unfold parse_environment in Hpp.
        repeat (apply bind_Ok in Hpp; destruct Hpp as (? & ? & Hpp)). injection Hpp as <-. eexists _, 0%Z. split; [reflexivity|now left]. }
    destruct R as [R1 R2]. destruct (read_input ds i) as [p|e|u|]; cbn [fst snd]; try (split; [intros y Hy; discriminate Hy|split; assumption]).
    2:{ split; [intros y Hy; injection Hy as <-; now apply R1|split; assumption]. }
    destruct (R2 p eq_refl) as (os & z & -> & Hz).
    assert (T := PropErrors.C51_thrown_by_store (mk_parsed os (Some ds) z) vm false Hz). specialize (T ltac:(cbn; intros ds' d [= <-]; apply Hp)).
    assert (F := store_from_options ds os z vm Hm).
    destruct (store (mk_parsed os (Some ds) z) vm false) as [vm' r] eqn:Es. cbn [fst snd] in *.
    destruct (store_sorted _ _ _ _ _ Es Hs Hr) as [Hs' Hr'].
    destruct r as [x|e|u|]; cbn [fst snd]; try (split; [exact T|split; assumption]).
    apply IH; [intros c args Hi; apply (Ha c args); now right|intros mapper env Hi; apply (He mapper env); now right|exact Hs'|exact Hr'|exact F]. }
  destruct (G inputs vm_new Ha He ltac:(constructor) ltac:(constructor) ltac:(intros n v s H; discriminate)) as (T & Hs & Hf).
  destruct (load ds inputs vm_new) as [vm r]. cbn [fst snd] in *. destruct r as [x|e'|u|]; cbn [snd]; [|apply T|discriminate..].
  apply PropErrors.C51_thrown_by_notify. intros k v s Hi Hv. apply (proj2 (sm_find_In_pair k v Hs)) in Hi. destruct (Hf k v s Hi Hv) as (d & Hd & ->). now apply Hp.
Qed.
Print Assumptions C105_messages.

(** ** The conditions matter *)

Definition pr_flag := mk_od $"-f" [$"fast"] [] (typed lex local (value_of_type TBool None)).
Definition pr_options_list : list option_description := [o_help; o_output; o_number; o_level; o_input].
Definition pr_line : cmdline := mk_cl 1015 false pr_options_list None None None.

(** C105. A boolean with a value that is not ASCII, *)
Theorem C105_booleans_refuted : exists ds inputs, orderly ds /\ Forall (suitable ds) inputs /\ snd (main_program ds inputs) = Undef UB_ctype.
Proof.
  exists [pr_flag], [Arguments (mk_cl 1015 false [pr_flag] None None None) [$"--fast=" ++ ["200"%char]]].
  split; [|split; [|reflexivity]].
  - constructor.
    + constructor; [discriminate|constructor].
    + constructor; [|constructor]. constructor; [|constructor]. split; [discriminate|]. cbn. intuition discriminate.
    + constructor; constructor.
    + constructor; [|constructor]. exists TBool. left. exists lex, local, (value_of_type TBool None). repeat split; discriminate.
  - constructor; [|constructor]. repeat split; try reflexivity. left. split; reflexivity.
Qed.
Print Assumptions C105_booleans_refuted.

Lemma pr_orderly : orderly pr_options_list.
Proof.
  constructor.
  - repeat (constructor; [discriminate|]). constructor.
  - repeat (constructor; [repeat (constructor; [split; [discriminate|cbn; intuition discriminate]|]); constructor|]). constructor.
  - repeat (constructor; [repeat (constructor; [cbn; intuition (subst; discriminate)|]); constructor|]). constructor.
  - repeat (constructor; [|]); try constructor.
    + exists TString. right. split; [reflexivity|]. exists local, true. split; [reflexivity|discriminate].
    + exists TString. right. split; [reflexivity|]. exists local, false. split; [reflexivity|discriminate].
    + exists (TLex 0). left. exists lex, local, tint. repeat split; discriminate.
    + exists (TLex 0). left. exists lex, local, timplicit. repeat split; discriminate.
    + exists (tv_type tstrings). left. exists lex, local, tstrings. repeat split; discriminate.
Qed.

Lemma pr_no_booleans : no_booleans pr_options_list.
Proof.
  repeat (constructor; [|]); try constructor.
  - exists TString. split; [right; split; [reflexivity|]; exists local, true; split; [reflexivity|discriminate]|intros []].
  - exists TString. split; [right; split; [reflexivity|]; exists local, false; split; [reflexivity|discriminate]|intros []].
  - exists (TLex 0). split; [left; exists lex, local, tint; repeat split; discriminate|intros []].
  - exists (TLex 0). split; [left; exists lex, local, timplicit; repeat split; discriminate|intros []].
  - exists (tv_type tstrings). split; [left; exists lex, local, tstrings; repeat split; discriminate|intros []].
Qed.

(** C105. and a section without a name, are undefined. *)
Theorem C105_sections_refuted : exists ds inputs u, orderly ds /\ no_booleans ds /\ snd (main_program ds inputs) = Undef u.
Proof.
  exists pr_options_list, [File false ($"[]")]. eexists. split; [apply pr_orderly|]. split; [apply pr_no_booleans|reflexivity].
Qed.
Print Assumptions C105_sections_refuted.

Definition pr_mapper (n : str) : outcome str := Ok (if str_eqb n $"APP_LEVEL" then $"level" else []).
Definition pr_inputs : list input :=
  [Arguments pr_line [$"-n5"; $"--output=" ++ ["200"%char]];
   File true ($"number = 6" ++ [c_nl] ++ $"[log]" ++ [c_nl] ++ $"file=x");
   Environment pr_mapper (environ [($"HOME", $"/root"); ($"APP_LEVEL", $"x=3")])].

Example C105_ex : orderly pr_options_list /\ Forall (suitable pr_options_list) pr_inputs /\ no_booleans pr_options_list
  /\ (exists e, snd (main_program pr_options_list pr_inputs) = Throw e)
  /\ snd (main_program pr_options_list (firstn 2 pr_inputs)) = Ok tt.
Proof.
  split; [apply pr_orderly|]. split; [|split; [|split; [eexists; reflexivity|reflexivity]]].
  - constructor; [|constructor; [|constructor; [|constructor]]].
    + repeat split; try reflexivity. left. split; reflexivity.
    + cbn [suitable]. intros ls Hls l Hl Hs. destruct (PropConfig.C58_files_have_lines ($"number = 6" ++ [c_nl] ++ $"[log]" ++ [c_nl] ++ $"file=x")) as (ls0 & _ & U).
      assert (E : lines_of ($"number = 6" ++ [c_nl] ++ $"[log]" ++ [c_nl] ++ $"file=x") [$"number = 6"; $"[log]"; $"file=x"]).
      { split; [repeat (constructor; [cbn; unfold without; cbn; intuition discriminate|]); constructor|]. right. exists [$"number = 6"; $"[log]"], $"file=x".
        split; [reflexivity|]. split; [discriminate|reflexivity]. }
      rewrite (U _ Hls), <- (U _ E) in Hl. destruct Hl as [<-|[<-|[<-|[]]]].
      * assert (D : line_is $"number = 6" (Assign $"number" $"6")) by (clear; apply (li_assign [] $"number" $" " $" " $"6" [] []); PropConfig.solve_line).
        discriminate (line_fun _ _ _ D Hs).
      * assert (D : line_is $"[log]" (Section_ $"log")) by (clear; apply (li_section [] $"log" [] []); PropConfig.solve_line).
        discriminate (line_fun _ _ _ D Hs).
      * assert (D : line_is $"file=x" (Assign $"file" $"x")) by (clear; apply (li_assign [] $"file" [] [] $"x" [] []); PropConfig.solve_line).
        discriminate (line_fun _ _ _ D Hs).
    + split; [exists [($"HOME", $"/root"); ($"APP_LEVEL", $"x=3")]; split; [reflexivity|]|].
      * repeat (constructor; [cbn; unfold without; cbn; intuition discriminate|]). constructor.
      * intros n. left. eexists. reflexivity.
  - apply pr_no_booleans.
Qed.
