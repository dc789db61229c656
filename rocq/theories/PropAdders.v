(** Claim C122: the objects that [add_options()] returns. *)

From Coq Require Import Ascii String List NArith ZArith Bool Lia.
From Verif Require Import Base Errors Spec Values OptDesc SpecBuild Build BuildFacts Objects Lifetimes LifetimeFacts Adders SpecAdders AdderFacts Samples.
Import ListNotations.

(** C122. In a program whose calls have all returned, each of the objects belongs to one description. *)
Theorem C122_belong : forall flag p w, adder_run flag adder_start p = Ok w ->
  exists xs, belong p xs /\ forall ys, belong p ys -> ys = xs.
Proof.
  intros flag p w R. exists (aw_owners w). assert (B := belong_run flag p w R). split; [assumption|].
  intros ys Y. exact (belong_one _ _ Y _ B).
Qed.
Print Assumptions C122_belong.

(** C122. Such a program can be written without these objects, and its descriptions are the same. *)
Theorem C122_directly : forall flag p w, adder_run flag adder_start p = Ok w ->
  (exists q, written_directly p q)
  /\ forall q, written_directly p q -> adder_run flag adder_start q = Ok (mk_aw (aw_descs w) []).
Proof.
  intros flag p w R. split; [exact (directly_exists flag p w R)|]. intros q Q. exact (directly_run flag p q Q w R).
Qed.
Print Assumptions C122_directly.

(** C122. A declaration through such an object adds one option at the end of the description it belongs to, and changes no other
    description, be it a copy of this one or made of it. *)
Theorem C122_declare : forall flag p w xs e x a,
  adder_run flag adder_start p = Ok w -> belong p xs -> nth_error xs e = Some x -> ~ ended p x ->
  (forall names, c_string (add_name a) names -> names <> []) ->
  exists w' u v d, adder_run flag adder_start (p ++ [ADeclare e a]) = Ok w'
    /\ nth_error (aw_descs w) x = Some (Some u) /\ nth_error (aw_descs w') x = Some (Some v)
    /\ declares flag a d /\ ods_options v = ods_options u ++ [(d, false)]
    /\ ods_groups v = ods_groups u /\ ods_caption v = ods_caption u /\ ods_line_length v = ods_line_length u
    /\ ods_min_description_length v = ods_min_description_length u
    /\ forall y, y <> x -> nth_error (aw_descs w') y = nth_error (aw_descs w) y.
Proof.
  intros flag p w xs e x a R B N K Hn. destruct (owner_there flag p w xs e x R B N) as (No & _ & Hl).
  destruct (Hl K) as [u U]. destruct (@easy_init_lemma flag u a (Hn _ (c_text_c_string _))) as (d & E & Hd).
  exists (mk_aw (set_cell (aw_descs w) x (Some (ods_add u d))) (aw_owners w)), u, (ods_add u d), d.
  split.
  - rewrite run_snoc, R. cbn [bind adder_step]. unfold the_owner. rewrite No. cbn [bind]. unfold declare_at, fetch.
    rewrite U. cbn [bind]. now rewrite E.
  - split; [assumption|]. cbn [aw_descs]. split.
    + rewrite nth_set_cell, Nat.eqb_refl, U. reflexivity.
    + split; [assumption|]. repeat split. intros y Y. rewrite nth_set_cell. destruct (Nat.eqb_spec x y); congruence.
Qed.
Print Assumptions C122_declare.

(** C122. After the end of the description, a declaration is undefined; copies of the object can still be made. *)
Theorem C122_ended_refuted : forall flag p w xs e x a,
  adder_run flag adder_start p = Ok w -> belong p xs -> nth_error xs e = Some x -> ended p x ->
  adder_run flag adder_start (p ++ [ADeclare e a]) = Undef UB_dangling
  /\ exists w', adder_run flag adder_start (p ++ [ACopyAdder e]) = Ok w' /\ belong (p ++ [ACopyAdder e]) (xs ++ [x]).
Proof.
  intros flag p w xs e x a R B N K. destruct (owner_there flag p w xs e x R B N) as (No & He & _). split.
  - rewrite run_snoc, R. cbn [bind adder_step]. unfold the_owner. rewrite No. cbn [bind]. unfold declare_at, fetch.
    now rewrite (He K).
  - eexists. split; [|exact (be_copied _ _ _ _ B N)].
    rewrite run_snoc, R. cbn [bind adder_step]. unfold the_owner. rewrite No. reflexivity.
Qed.
Print Assumptions C122_ended_refuted.

(** C122. An empty name violates an assertion. *)
Theorem C122_empty_name_refuted : forall flag p w xs e x a,
  adder_run flag adder_start p = Ok w -> belong p xs -> nth_error xs e = Some x -> ~ ended p x ->
  c_string (add_name a) [] ->
  adder_run flag adder_start (p ++ [ADeclare e a]) = Undef UB_assert.
Proof.
  intros flag p w xs e x a R B N K [_ Ha]. destruct (owner_there flag p w xs e x R B N) as (No & _ & Hl).
  destruct (Hl K) as [u U]. rewrite run_snoc, R. cbn [bind adder_step]. unfold the_owner. rewrite No. cbn [bind].
  unfold declare_at, fetch. rewrite U. cbn [bind].
  assert (E : c_text (add_name a) = []) by (destruct Ha as [->|[r ->]]; reflexivity).
  destruct a; cbn [add_name] in E; unfold easy_init; cbv iota beta; rewrite E; reflexivity.
Qed.
Print Assumptions C122_empty_name_refuted.

(** C122. Making, copying and assigning such objects changes no description. *)
Theorem C122_no_effect : forall flag p w c w',
  adder_run flag adder_start p = Ok w -> about_adders c -> adder_run flag adder_start (p ++ [c]) = Ok w' ->
  aw_descs w' = aw_descs w.
Proof.
  intros flag p w c w' R Hc H. apply run_snoc_inv in H as (w1 & R1 & S). rewrite R in R1. injection R1 as <-.
  apply step_inv in S. destruct c; try contradiction.
  - now destruct S as [_ ->].
  - now destruct S as (? & _ & ->).
  - now destruct S as (? & ? & ? & ? & _ & _ & _ & ->).
Qed.
Print Assumptions C122_no_effect.

(** C122. Whichever objects are used, the options of a description are in the order in which they are declared. *)
Theorem C122_order : forall flag p w xs x ds,
  adder_run flag adder_start p = Ok w -> belong p xs -> ~ ended p x -> ds <> [] ->
  (forall e a, In (e, a) ds -> nth_error xs e = Some x) ->
  (forall e a names, In (e, a) ds -> c_string (add_name a) names -> names <> []) ->
  exists w' u v new, adder_run flag adder_start (p ++ map (fun ea => ADeclare (fst ea) (snd ea)) ds) = Ok w'
    /\ nth_error (aw_descs w) x = Some (Some u) /\ nth_error (aw_descs w') x = Some (Some v)
    /\ Forall2 (fun ea d => declares flag (snd ea) d) ds new
    /\ ods_options v = ods_options u ++ map (fun d => (d, false)) new
    /\ forall y, y <> x -> nth_error (aw_descs w') y = nth_error (aw_descs w) y.
Proof.
  intros flag p w xs x ds R B K Hne Hx Hn. revert p w R B K. induction ds as [|[e a] ds IH]; intros p w R B K; [congruence|].
  destruct (C122_declare flag p w xs e x a R B (Hx e a (or_introl eq_refl)) K) as
    (w1 & u & v & d & R1 & U & V & Hd & Ho & _ & _ & _ & _ & Hy).
  { intros names. apply Hn with e. now left. }
  cbn [map fst snd]. destruct ds as [|ea ds].
  - exists w1, u, v, [d]. split; [exact R1|]. split; [assumption|]. split; [assumption|].
    split; [constructor; [assumption|constructor]|]. split; assumption.
  - destruct (IH) with (p := p ++ [ADeclare e a]) (w := w1) as (w2 & u2 & v2 & new & R2 & U2 & V2 & Hf & Ho2 & Hy2).
    + discriminate.
    + intros e' a' X. apply Hx with a'. now right.
    + intros e' a' names X. apply Hn with e'. now right.
    + exact R1.
    + apply be_other; [assumption|]. cbn. tauto.
    + unfold ended in *. rewrite in_snoc. intros [X|X]; [contradiction|discriminate].
    + rewrite V in U2. injection U2 as <-. exists w2, u, v2, (d :: new). rewrite <- app_assoc in R2.
      split; [exact R2|]. split; [assumption|]. split; [assumption|]. split; [now constructor|]. split.
      * rewrite Ho2, Ho, <- app_assoc. reflexivity.
      * intros y Y. rewrite (Hy2 y Y). now apply Hy.
Qed.
Print Assumptions C122_order.

(** Two objects for one description, a third one that is assigned, a copy of the description, and its end. *)
Definition ex_p : list adder_call :=
  [ADesc (DNew $"a" 80 40); AAdder 0; ADeclare 0 (add_flag $"one" $"1"); ADesc (DCopy 0); AAdder 1; ACopyAdder 0; ASetAdder 1 2].
Definition ex_ds : list (nat * add_call) := [(0, add_flag $"two" $"2"); (1, add_flag $"three" $"3"); (2, add_flag $"four,f" $"4")].

Example C122_ex : exists w w', adder_run tflag adder_start ex_p = Ok w /\ belong ex_p [0; 0; 0] /\ ~ ended ex_p 0
  /\ adder_run tflag adder_start (ex_p ++ map (fun ea => ADeclare (fst ea) (snd ea)) ex_ds) = Ok w'
  /\ map (fun c => match c with Some v => map od_longs (ods_list v) | None => [] end) (aw_descs w')
     = [[[$"one"]; [$"two"]; [$"three"]; [$"four"]]; [[$"one"]]]
  /\ (forall e a names, In (e, a) ex_ds -> c_string (add_name a) names -> names <> []).
Proof.
  eexists. eexists. split; [reflexivity|]. split; [|split; [|split; [reflexivity|split; [reflexivity|]]]].
  - exact (belong_run tflag ex_p _ eq_refl).
  - unfold ended. cbn. intuition discriminate.
  - intros e a names Ha [_ Hc] ->. cbn in Ha. destruct Ha as [[= <- <-]|[[= <- <-]|[[= <- <-]|[]]]]; cbn in Hc;
      (destruct Hc as [Hc|[r Hc]]; discriminate).
Qed.

Example C122_ex_ended : exists w, adder_run tflag adder_start (ex_p ++ [AEnd 0]) = Ok w
  /\ belong (ex_p ++ [AEnd 0]) [0; 0; 0] /\ ended (ex_p ++ [AEnd 0]) 0.
Proof.
  eexists. split; [reflexivity|]. split; [|unfold ended; cbn; tauto]. exact (belong_run tflag (ex_p ++ [AEnd 0]) _ eq_refl).
Qed.
