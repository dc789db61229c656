(** Facts about iterators. *)

From Coq Require Import Ascii String List NArith ZArith Bool Arith Lia.
From Verif Require Import Base Errors Spec BaseFacts Values OptDesc Positional Cmdline Parsers ConfigFile Streams SpecConfig ConfigFacts
  SpecStreams StreamFacts Iterators SpecIterators.
Import ListNotations.

(** ** Any derived class *)

Lemma put_same {D V} (its : list (iter D V)) i it : i < length its -> nth_error (put its i it) i = Some it.
Proof. revert i. induction its as [|x its IH]; intros [|i] H; cbn in *; try lia; auto. apply IH. lia. Qed.

Lemma put_other {D V} (its : list (iter D V)) i it j : i <> j -> nth_error (put its i it) j = nth_error its j.
Proof. revert i j. induction its as [|x its IH]; intros [|i] [|j] H; cbn; auto; congruence. Qed.

Lemma nth_bound {A} (l : list A) n x : nth_error l n = Some x -> n < length l.
Proof. intros H. apply nth_error_Some. congruence. Qed.

Section Any.
Context {W D V : Type} (get : D -> V -> W -> got W D V) (v0 : V) (d0 : D).

Lemma equal_iff (a b : iter D V) : equal a b = true <-> at_end a /\ at_end b.
Proof. unfold equal, at_end. apply andb_true_iff. Qed.

Lemma perform_end o its w its' w' r i :
  perform get v0 d0 o its w = (its', w', r) -> match o with OAssign k _ => k <> i | _ => True end ->
  forall it, nth_error its i = Some it -> at_end it -> exists it', nth_error its' i = Some it' /\ at_end it'.
Proof.
  intros H Ho it Hi He. pose proof (nth_bound _ _ _ Hi) as Hb. destruct o as [d| |k|k j|k]; cbn [perform] in H.
  - destruct (construct get v0 d w) as [[x w1] r1]. injection H as <- _ _. exists it. split; [|exact He].
    destruct r1; auto. now rewrite nth_error_app1.
  - injection H as <- _ _. exists it. split; [|exact He]. now rewrite nth_error_app1.
  - destruct (nth_error its k); injection H as <- _ _; exists it; (split; [|exact He]); [now rewrite nth_error_app1|exact Hi].
  - destruct (nth_error its k); [destruct (nth_error its j)|]; injection H as <- _ _; exists it; (split; [|exact He]); auto.
    now rewrite put_other.
  - destruct (nth_error its k) as [x|] eqn:Ek; [|injection H as <- _ _; now exists it].
    destruct (increment get x w) as [[x' w1] r1] eqn:Ei. injection H as <- _ _.
    destruct (Nat.eq_dec k i) as [->|Hk].
    + rewrite Hi in Ek. injection Ek as <-. exists x'. split; [now apply put_same|].
      unfold increment in Ei. injection Ei as <- _ _. unfold at_end in *. cbn [i_eof]. now rewrite He.
    + exists it. split; [now rewrite put_other|exact He].
Qed.

Lemma run_end ops : forall its w its' w' r i,
  run_its get v0 d0 ops its w = (its', w', r) -> leaves_alone i ops ->
  forall it, nth_error its i = Some it -> at_end it -> exists it', nth_error its' i = Some it' /\ at_end it'.
Proof.
  induction ops as [|o ops IH]; intros its w its' w' r i H Hl it Hi He; cbn [run_its] in H.
  - injection H as <- _ _. now exists it.
  - inversion Hl as [|? ? Ho Hl']; subst. destruct (perform get v0 d0 o its w) as [[its1 w1] r1] eqn:Ep.
    destruct (perform_end _ _ _ _ _ _ i Ep Ho it Hi He) as (it1 & Hi1 & He1).
    destruct r1; try (eapply IH; eauto; fail); injection H as <- _ _; now exists it1.
Qed.

Lemma range_sound fuel : forall first last w w' vs,
  at_end last -> copy_range get fuel first last w = (w', Ok vs) ->
  (at_end first /\ vs = [] /\ w' = w)
  \/ (~ at_end first /\ exists gs g,
        successive get (i_data first) (i_value first) w (gs ++ [g]) w'
        /\ Forall (fun g => g_eof g = false) gs /\ g_eof g = true /\ vs = dereference first :: map (@g_value W D V) gs).
Proof.
  induction fuel as [|fuel IH]; intros first last w w' vs Hl H; cbn [copy_range] in H; [discriminate|].
  destruct (equal first last) eqn:E.
  - left. apply equal_iff in E. injection H as <- <-. now split.
  - right. assert (Hf : ~ at_end first) by (intros Hf; unfold equal in E; unfold at_end in *; rewrite Hf, Hl in E; discriminate).
    split; [exact Hf|]. unfold increment in H. remember (get (i_data first) (i_value first) w) as g eqn:Eg.
    destruct (g_result g) as [[]|e|u|] eqn:Er; try discriminate.
    assert (Ef : i_eof first = false) by (unfold at_end in Hf; now destruct (i_eof first)). rewrite Ef in H. cbn [orb] in H.
    destruct (copy_range get fuel (mk_iter (g_eof g) (g_value g) (g_data g)) last (g_world g)) as [w2 rest] eqn:Ec.
    injection H as <- Hv. destruct rest as [vs'|e|u|]; try discriminate. cbn in Hv. injection Hv as <-.
    destruct (IH _ _ _ _ _ Hl Ec) as [(He & -> & ->)|(He & gs & g2 & Hs & Hg & Hg2 & ->)].
    + exists [], g. cbn [app map]. split; [|split; [constructor|split; [exact He|reflexivity]]].
      econstructor; [now symmetry|exact Er|constructor].
    + exists (g :: gs), g2. cbn [app map]. split; [econstructor; [now symmetry|exact Er|exact Hs]|].
      split; [constructor; [|exact Hg]|split; [exact Hg2|reflexivity]].
      unfold at_end in He. cbn [i_eof] in He. now destruct (g_eof g).
Qed.

Lemma range_complete gs : forall g first last w w',
  at_end last -> ~ at_end first -> successive get (i_data first) (i_value first) w (gs ++ [g]) w' ->
  Forall (fun g => g_eof g = false) gs -> g_eof g = true ->
  copy_range get (S (S (length gs))) first last w = (w', Ok (dereference first :: map (@g_value W D V) gs)).
Proof.
  induction gs as [|g1 gs IH]; intros g first last w w' Hl Hf Hs Hg He.
  - cbn [app] in Hs. inversion Hs as [|d v w1 g1 gs1 w2 Eg Er Hs']; subst. inversion Hs' as [d v w1|]; subst. cbn [length copy_range].
    assert (Ef : i_eof first = false) by (unfold at_end in Hf; now destruct (i_eof first)).
    unfold equal at 1. rewrite Ef. cbn [andb]. unfold increment. rewrite Er. unfold equal. cbn [i_eof]. rewrite He, Ef. unfold at_end in Hl.
    rewrite Hl. cbn. reflexivity.
  - cbn [app] in Hs. inversion Hs as [|d v w1 g2 gs1 w2 Eg Er Hs']; subst. inversion Hg as [|? ? Hg1 Hg']; subst.
    assert (Ef : i_eof first = false) by (unfold at_end in Hf; now destruct (i_eof first)).
    cbn [length]. remember (S (S (length gs))) as m eqn:Em. cbn [copy_range]. unfold equal at 1. rewrite Ef. cbn [andb]. unfold increment.
    rewrite Er. subst m.
    rewrite (IH g (mk_iter (i_eof first || g_eof (get (i_data first) (i_value first) w)) (g_value (get (i_data first) (i_value first) w))
                     (g_data (get (i_data first) (i_value first) w))) last _ w' Hl); auto.
    unfold at_end. cbn [i_eof]. rewrite Ef, Hg1. discriminate.
Qed.

Lemma never_ends fuel : forall first last w w' vs, ~ at_end last -> copy_range get fuel first last w <> (w', Ok vs).
Proof.
  induction fuel as [|fuel IH]; intros first last w w' vs Hl H; cbn [copy_range] in H; [discriminate|].
  destruct (equal first last) eqn:E; [apply equal_iff in E; now destruct E|].
  destruct (increment get first w) as [[it w1] r]. destruct r; try discriminate.
  destruct (copy_range get fuel it last w1) as [w2 rest] eqn:Ec. injection H as <- Hv.
  destruct rest as [vs'|e|u|]; try discriminate. exact (IH _ _ _ _ _ Hl Ec).
Qed.
End Any.

(** ** The environment *)

Section Env.
Variables (vars : list (str * str)) (behind : list (option str)).
Hypothesis Hvars : Forall (fun nv => without c_eq (fst nv)) vars.

Lemma env_at i : i <= length vars -> env_get (env_array vars behind) i = Ok (nth_error vars i).
Proof.
  intros Hi. unfold env_get, env_array. destruct (Nat.lt_ge_cases i (length vars)) as [H|H].
  - rewrite nth_error_app1 by (unfold environ; now rewrite !map_length).
    destruct (nth_error vars i) as [[n v]|] eqn:E; [|apply nth_error_None in E; lia].
    unfold environ. rewrite map_map. rewrite (map_nth_error (fun nv => Some (fst nv ++ [c_eq] ++ snd nv)) i vars E).
    cbn [fst snd]. rewrite env_split_var; [reflexivity|]. rewrite Forall_forall in Hvars. apply nth_error_In in E.
    exact (Hvars _ E).
  - assert (i = length vars) by lia. subst i.
    rewrite nth_error_app2; unfold environ; rewrite !map_length; [|lia]. rewrite Nat.sub_diag. cbn.
    now replace (nth_error vars (length vars)) with (@None (str * str)) by (symmetry; apply nth_error_None; lia).
Qed.

Definition inv (it : iter (option nat) (str * str)) (p : option nat) : Prop :=
  match p with
  | None => it = default_iter ([], []) None
  | Some k => i_data it = Some (Nat.min (S k) (length vars)) /\ stands vars it (Some k)
  end.

Lemma last_nth {A} (l : list A) d k x : nth_error l k = Some x -> S k = length l -> last l d = x.
Proof.
  revert k. induction l as [|a l IH]; intros k H E; [discriminate|]. destruct l as [|b l].
  - destruct k; [now injection H|discriminate].
  - cbn in E. destruct k as [|k]; [discriminate|]. cbn in H. change (last (a :: b :: l) d) with (last (b :: l) d).
    apply (IH k); [exact H|cbn; lia].
Qed.

Lemma env_increment it k : inv it (Some k) ->
  exists it', increment (env_iget (env_array vars behind)) it tt = (it', tt, Ok tt) /\ inv it' (Some (S k)).
Proof.
  intros [Hd Hs]. unfold increment. rewrite Hd. cbn [env_iget]. rewrite env_at by lia. unfold inv, stands in *.
  destruct (Nat.lt_ge_cases (S k) (length vars)) as [H|H].
  - replace (Nat.min (S k) (length vars)) with (S k) by lia.
    destruct (nth_error vars (S k)) as [nv|] eqn:E; [|apply nth_error_None in E; lia].
    destruct (nth_error vars k) as [nv0|] eqn:E0; [|apply nth_error_None in E0; lia]. destruct Hs as [He _].
    eexists. split; [reflexivity|]. cbn [i_data g_data i_eof g_eof i_value g_value dereference]. unfold at_end in *. cbn [i_eof].
    split; [f_equal; lia|]. split; [|reflexivity]. now destruct (i_eof it).
  - replace (Nat.min (S k) (length vars)) with (length vars) by lia.
    replace (nth_error vars (length vars)) with (@None (str * str)) by (symmetry; apply nth_error_None; lia).
    replace (nth_error vars (S k)) with (@None (str * str)) by (symmetry; apply nth_error_None; lia).
    eexists. split; [reflexivity|]. cbn [i_data g_data g_eof g_value]. split; [f_equal; lia|].
    unfold at_end, dereference. cbn [i_eof i_value]. rewrite orb_true_r. split; [reflexivity|].
    destruct (nth_error vars k) as [nv|] eqn:E.
    + destruct Hs as [_ Hv]. unfold dereference in Hv. rewrite Hv. symmetry. apply (last_nth _ _ k); [exact E|].
      apply nth_bound in E. lia.
    + now destruct Hs.
Qed.

Lemma env_construct :
  exists it, construct (env_iget (env_array vars behind)) ([], []) (Some 0) tt = (it, tt, Ok tt) /\ inv it (Some 0).
Proof.
  unfold construct, increment. cbn [i_data i_value i_eof env_iget]. rewrite env_at by lia. unfold inv, stands.
  destruct vars as [|nv l]; cbn [nth_error].
  - eexists. split; [reflexivity|]. repeat split; reflexivity.
  - eexists. split; [reflexivity|]. split; [reflexivity|]. split; [discriminate|reflexivity].
Qed.

Lemma nth_rel {A B} (R : A -> B -> Prop) l m i y : Forall2 R l m -> nth_error m i = Some y -> exists x, nth_error l i = Some x /\ R x y.
Proof.
  intros H. revert i. induction H as [|a b l m Hab _ IH]; intros [|i] E; try discriminate.
  - injection E as <-. now exists a.
  - exact (IH i E).
Qed.

Lemma put_rel its ps i it p : Forall2 inv its ps -> i < length ps -> inv it p ->
  Forall2 inv (put its i it) (firstn i ps ++ p :: skipn (S i) ps).
Proof.
  intros H. revert i. induction H as [|a b its ps Hab Hr IH]; intros [|i] Hi Hp; cbn [length] in Hi; try lia.
  - cbn. now constructor.
  - cbn [put firstn app]. change (skipn (S (S i)) (b :: ps)) with (skipn (S i) ps). constructor; [exact Hab|]. apply IH; [lia|exact Hp].
Qed.

Lemma tally_step o its ps ps' : Forall2 inv its ps -> tally o ps = Some ps' ->
  exists its', perform (env_iget (env_array vars behind)) ([], []) None o its tt = (its', tt, Ok tt) /\ Forall2 inv its' ps'.
Proof.
  intros H Ht. destruct o as [d| |i|i j|i]; cbn [tally perform] in *.
  - destruct d as [[|?]|]; try discriminate. injection Ht as <-. destruct env_construct as (it & -> & Hi).
    eexists. split; [reflexivity|]. apply Forall2_app; auto.
  - injection Ht as <-. eexists. split; [reflexivity|]. apply Forall2_app; auto. repeat constructor.
  - destruct (nth_error ps i) as [p|] eqn:E; [|discriminate]. injection Ht as <-.
    destruct (nth_rel _ _ _ _ _ H E) as (it & -> & Hi). eexists. split; [reflexivity|]. apply Forall2_app; auto.
  - destruct (nth_error ps i) as [p0|] eqn:E0; [|discriminate]. destruct (nth_error ps j) as [p|] eqn:E; [|discriminate].
    injection Ht as <-. destruct (nth_rel _ _ _ _ _ H E0) as (it0 & -> & _). destruct (nth_rel _ _ _ _ _ H E) as (it & -> & Hi).
    eexists. split; [reflexivity|]. apply put_rel; auto. now apply nth_bound in E0.
  - destruct (nth_error ps i) as [[k|]|] eqn:E; try discriminate. injection Ht as <-.
    destruct (nth_rel _ _ _ _ _ H E) as (it & -> & Hi). destruct (env_increment it k Hi) as (it' & -> & Hi').
    eexists. split; [reflexivity|]. apply put_rel; auto. now apply nth_bound in E.
Qed.

Lemma tallies_run ops : forall its ps ps', Forall2 inv its ps -> tallies ops ps = Some ps' ->
  exists its', run_its (env_iget (env_array vars behind)) ([], []) None ops its tt = (its', tt, Ok tt) /\ Forall2 inv its' ps'.
Proof.
  induction ops as [|o ops IH]; intros its ps ps' H Ht; cbn [tallies run_its] in *.
  - injection Ht as <-. now exists its.
  - destruct (tally o ps) as [ps1|] eqn:E; [|discriminate]. destruct (tally_step _ _ _ _ H E) as (its1 & -> & H1). now apply (IH its1 ps1).
Qed.

Lemma inv_stands it p : inv it p -> stands vars it p.
Proof. destruct p as [k|]; [now intros [_ H]|]. intros ->. reflexivity. Qed.

Lemma env_forever fuel : forall first last k, inv first (Some k) -> ~ at_end last ->
  copy_range (env_iget (env_array vars behind)) fuel first last tt = (tt, NoFuel).
Proof.
  induction fuel as [|fuel IH]; intros first last k Hf Hl; [reflexivity|]. cbn [copy_range].
  destruct (equal first last) eqn:E; [apply equal_iff in E; now destruct E|].
  destruct (env_increment first k Hf) as (it' & -> & Hi). now rewrite (IH it' last (S k) Hi Hl).
Qed.
End Env.

(** ** Config files *)

Section Config.
Variables (allowed prefixes : sset) (au : bool).

Lemma config_it_get fuel : forall at_eof prefix v s,
  let g := config_iget fuel allowed prefixes au prefix v s in
  it_get (fun x => char_eqb x c_nl) (fun l => Ok l) fuel allowed prefixes au (mk_it at_eof v prefix) s
  = (g_world g, let* _ := g_result g in Ok (mk_it (at_eof || g_eof g) (g_value g) (g_data g))).
Proof.
  induction fuel as [|fuel IH]; intros at_eof prefix v s; [reflexivity|]. cbn [it_get config_iget].
  destruct (std_getline (fun x => char_eqb x c_nl) s) as [[l|] s']; cbn [bind].
  - cbn [it_prefix it_value it_at_eof]. destruct (cf_line allowed prefixes au prefix l) as [[p|n x b]|e|u|]; cbn; try reflexivity.
    + apply IH.
    + now rewrite orb_false_r.
  - cbn. now rewrite orb_true_r.
Qed.

Lemma config_throw fuel : forall prefix v s,
  let g := config_iget fuel allowed prefixes au prefix v s in g_result g <> Ok tt -> g_eof g = false /\ g_value g = v.
Proof.
  induction fuel as [|fuel IH]; intros prefix v s g H; [now split|]. subst g. cbn [config_iget] in *.
  destruct (std_getline (fun x => char_eqb x c_nl) s) as [[l|] s']; [|now destruct H].
  destruct (cf_line allowed prefixes au prefix l) as [[p|n x b]|e|u|]; try (now split); try (now destruct H); now apply IH.
Qed.

Lemma config_copy fuel : forall it s,
  it_copy (fun x => char_eqb x c_nl) (fun l => Ok l) fuel allowed prefixes au (mk_it (i_eof it) (i_value it) (i_data it)) s
  = copy_range (config_get allowed prefixes au) fuel it (default_iter popt_new []) s.
Proof.
  induction fuel as [|fuel IH]; intros it s; [reflexivity|]. cbn [it_copy copy_range].
  change (it_equal (mk_it (i_eof it) (i_value it) (i_data it)) it_end) with (i_eof it && true).
  unfold equal. change (i_eof (default_iter popt_new [])) with true.
  destruct (i_eof it && true) eqn:E; [reflexivity|]. rewrite config_it_get. unfold increment, config_get.
  set (g := config_iget _ _ _ _ _ _ _).
  destruct (g_result g) as [[]|e|u|] eqn:Er; cbn [bind]; try reflexivity.
  rewrite <- (IH (mk_iter (i_eof it || g_eof g) (g_value g) (g_data g))). cbn [i_eof i_value i_data it_value].
  destruct (it_copy _ _ fuel _ _ _ _ _) as [s2 [os|e|u|]]; reflexivity.
Qed.
End Config.

Section Recover.
Variables (ds : list option_description) (al P : sset) (allow : bool).
Hypothesis Hacc : forall n, allowed_option al P n = true <-> accepts ds n.
Notation nl := (fun x => char_eqb x c_nl).

Lemma get_line sec l rest : cf_get al P allow sec (l :: rest)
  = match cf_line al P allow sec l with
    | Ok (Skip p) => cf_get al P allow p rest
    | Ok (Found n v b) => Ok (Some (config_option n v (negb b)), mk_cf sec rest)
    | Throw e => Throw e
    | Undef u => Undef u
    | NoFuel => NoFuel
    end.
Proof.
  cbn [cf_get]. unfold cf_line. cbv zeta. destruct (is_empty (strip_line l)); auto.
  destruct (is_section (strip_line l)); [now destruct (section_prefix (strip_line l))|].
  destruct (find_char c_eq (strip_line l)); auto. now destruct (negb _ && negb _).
Qed.

Lemma line_skip sec l p : (forall rest, cf_get al P allow sec (l :: rest) = cf_get al P allow p rest) ->
  cf_line al P allow sec l = Ok (Skip p).
Proof.
  intros H. specialize (H []). rewrite get_line in H. cbn [cf_get] in H.
  destruct (cf_line al P allow sec l) as [[q|n v b]|e|u|]; try discriminate. now injection H as ->.
Qed.

Lemma line_throw sec l e : cf_get al P allow sec [l] = Throw e -> cf_line al P allow sec l = Throw e.
Proof.
  intros H. rewrite get_line in H. cbn [cf_get] in H.
  destruct (cf_line al P allow sec l) as [[q|n v b]|e'|u|]; try discriminate. now injection H as ->.
Qed.

Lemma line_found sec l n v b : cf_get al P allow sec [l] = Ok (Some (config_option n v (negb b)), mk_cf sec []) ->
  cf_line al P allow sec l = Ok (Found n v b).
Proof.
  intros H. rewrite get_line in H. cbn [cf_get] in H.
  destruct (cf_line al P allow sec l) as [[q|n' v' b']|e'|u|]; try discriminate. injection H as -> -> Hb. clear Hb.
  intros. now destruct b, b'.
Qed.

(** What one call of [get] does. *)
Definition step (es : list entry) (rs : list (popt + exn)) (v : popt) (g : got (stream ascii) str popt) : Prop :=
  match rs with
  | [] => g_result g = Ok tt /\ g_eof g = true
  | inl o :: rs' =>
      g_result g = Ok tt /\ g_eof g = false /\ g_value g = o
      /\ exists es', Forall2 line_is (slines nl (g_world g)) es' /\ recovers ds allow (g_data g) es' rs'
  | inr e :: rs' =>
      g_result g = Throw e /\ g_eof g = false /\ g_value g = v
      /\ exists es', Forall2 line_is (slines nl (g_world g)) es' /\ recovers ds allow (g_data g) es' rs'
  end.

Lemma recover_get sec es rs : recovers ds allow sec es rs -> forall fuel v s,
  measure s < fuel -> Forall2 line_is (slines nl s) es -> po_pos v = (-1)%Z -> po_ci v = false ->
  step es rs v (config_iget fuel al P allow sec v s) /\ measure (g_world (config_iget fuel al P allow sec v s)) <= measure s
  /\ (rs <> [] -> measure (g_world (config_iget fuel al P allow sec v s)) < measure s).
Proof.
  intros H. induction H as [sec|sec es rs H IH|s0 sec' sec es rs Hs H IH|sec n x es rs Ha H IH|sec n x es rs Ha Hal H IH
    |sec n x es rs Ha Hal H IH|sec s0 es rs H IH]; intros fuel v s Hf Hl Hp Hc;
    (destruct fuel as [|fuel]; [lia|]); cbn [config_iget]; pose proof (getline_lines nl s) as Hg;
    destruct (std_getline nl s) as [[l|] s1] eqn:Eg;
    try (destruct Hg as (Hg & _); rewrite Hg in Hl; inversion Hl; subst; fail).
  - destruct Hg as (_ & _ & Hbad & _). cbn. split; [now split|]. split; [|congruence]. unfold measure. rewrite Hbad. lia.
  - destruct Hg as (Hg & _). rewrite Hg in Hl. inversion Hl as [|? ? ? ? He Hl']; subst. apply getline_measure in Eg. destruct Eg as [Em _].
    rewrite (line_skip sec l sec) by (intros rest; now apply get_nothing).
    destruct (IH fuel v s1) as (H1 & H2 & H3); auto; [lia|]. split; [exact H1|]. split; [lia|]. lia.
  - destruct Hg as (Hg & _). rewrite Hg in Hl. inversion Hl as [|? ? ? ? He Hl']; subst. apply getline_measure in Eg. destruct Eg as [Em _].
    rewrite (line_skip sec l sec').
    + destruct (IH fuel v s1) as (H1 & H2 & H3); auto; [lia|]. split; [exact H1|]. split; [lia|]. lia.
    + intros rest. destruct (get_section al P allow sec l rest s0 He) as [[-> _]|(q & Hq & ->)]; [now apply section_name_nil in Hs|].
      now rewrite (section_name_fun s0 sec' q).
  - destruct Hg as (Hg & _). rewrite Hg in Hl. inversion Hl as [|? ? ? ? He Hl']; subst. apply getline_measure in Eg. destruct Eg as [Em _].
    rewrite (line_found sec l (sec ++ n) x true).
    + cbn. unfold assigned. rewrite Hp, Hc. split; [|lia]. repeat split; auto. now exists es.
    + rewrite (get_assign al P allow sec l [] n x He). apply Hacc in Ha. now rewrite Ha.
  - destruct Hg as (Hg & _). rewrite Hg in Hl. inversion Hl as [|? ? ? ? He Hl']; subst. apply getline_measure in Eg. destruct Eg as [Em _].
    rewrite (line_found sec l (sec ++ n) x false).
    + cbn. unfold assigned. rewrite Hp, Hc. split; [|lia]. repeat split; auto. now exists es.
    + rewrite (get_assign al P allow sec l [] n x He), Hal. rewrite <- Hacc in Ha. destruct (allowed_option al P (sec ++ n)); [now destruct Ha|reflexivity].
  - destruct Hg as (Hg & _). rewrite Hg in Hl. inversion Hl as [|? ? ? ? He Hl']; subst. apply getline_measure in Eg. destruct Eg as [Em _].
    rewrite (line_throw sec l (mk_unknown_option (sec ++ n))).
    + cbn. split; [|lia]. repeat split; auto. now exists es.
    + rewrite (get_assign al P allow sec l [] n x He), Hal. rewrite <- Hacc in Ha. destruct (allowed_option al P (sec ++ n)); [now destruct Ha|reflexivity].
  - destruct Hg as (Hg & _). rewrite Hg in Hl. inversion Hl as [|? ? ? ? He Hl']; subst. apply getline_measure in Eg. destruct Eg as [Em _].
    rewrite (line_throw sec l (mk_config_syntax s0 unrecognized_line)).
    + cbn. split; [|lia]. repeat split; auto. now exists es.
    + now apply get_junk.
Qed.

Lemma recovers_plain sec es rs : recovers ds allow sec es rs -> forall o, In (inl o) rs -> po_pos o = (-1)%Z /\ po_ci o = false.
Proof.
  intros H. induction H; intros o Ho; cbn in Ho; try contradiction; auto; destruct Ho as [Ho|Ho]; auto; try discriminate;
    now injection Ho as <-.
Qed.

Lemma recover_drain fuel : forall it s es rs,
  measure s < fuel -> i_eof it = false -> Forall2 line_is (slines nl s) es -> recovers ds allow (i_data it) es rs ->
  po_pos (i_value it) = (-1)%Z -> po_ci (i_value it) = false ->
  drain (config_get al P allow) fuel it s = Ok rs.
Proof.
  induction fuel as [|fuel IH]; intros it s es rs Hf He Hl Hr Hp Hc; [lia|]. cbn [drain]. rewrite He. unfold increment.
  destruct (recover_get _ _ _ Hr (S (S (length (st_rest s)))) (i_value it) s) as (Hs & _ & Hm); auto;
    [pose proof (measure_le s); lia|].
  change (config_iget (S (S (length (st_rest s)))) al P allow (i_data it) (i_value it) s)
    with (config_get al P allow (i_data it) (i_value it) s) in *.
  set (g := config_get al P allow (i_data it) (i_value it) s) in *. rewrite He. cbn [orb].
  pose proof (recovers_plain _ _ _ Hr) as Hpl.
  destruct rs as [|[o|e] rs]; cbn [step] in Hs.
  - destruct Hs as [-> Hs]. cbn [i_eof]. now rewrite Hs.
  - destruct Hs as (-> & Hs & Ho & es' & Hl' & Hr'). cbn [i_eof]. rewrite Hs. destruct (Hpl o (or_introl eq_refl)) as [Hp' Hc'].
    rewrite (IH _ _ es' rs); cbn [i_data i_value i_eof]; auto; try (now rewrite Ho).
    specialize (Hm ltac:(discriminate)). lia.
  - destruct Hs as (-> & Hs & Ho & es' & Hl' & Hr').
    rewrite (IH _ _ es' rs); cbn [i_data i_value i_eof]; auto; try (now rewrite Ho).
    specialize (Hm ltac:(discriminate)). lia.
Qed.

Lemma recover_construct s es rs :
  Forall2 line_is (slines nl s) es -> recovers ds allow [] es rs ->
  match rs with
  | [] => exists it s1, construct (config_get al P allow) popt_new [] s = (it, s1, Ok tt) /\ at_end it
  | inl o :: rs' => exists it s1, construct (config_get al P allow) popt_new [] s = (it, s1, Ok tt) /\ ~ at_end it /\ dereference it = o
                      /\ exists fuel, drain (config_get al P allow) fuel it s1 = Ok rs'
  | inr e :: rs' => exists it s1, construct (config_get al P allow) popt_new [] s = (it, s1, Throw e)
  end.
Proof.
  intros Hl Hr. unfold construct, increment. cbn [i_data i_value i_eof].
  destruct (recover_get _ _ _ Hr (S (S (length (st_rest s)))) popt_new s) as (Hs & _ & Hm); auto;
    [pose proof (measure_le s); lia|].
  change (config_iget (S (S (length (st_rest s)))) al P allow [] popt_new s) with (config_get al P allow [] popt_new s) in *.
  set (g := config_get al P allow [] popt_new s) in *.
  pose proof (recovers_plain _ _ _ Hr) as Hpl.
  destruct rs as [|[o|e] rs]; cbn [step] in Hs.
  - destruct Hs as [E Hs]. rewrite E. eexists _, _. split; [reflexivity|]. exact Hs.
  - destruct Hs as (E & Hs & Ho & es' & Hl' & Hr'). rewrite E. eexists _, _. split; [reflexivity|].
    unfold at_end, dereference. cbn [i_eof i_value orb]. rewrite Hs. split; [discriminate|]. split; [exact Ho|].
    destruct (Hpl o (or_introl eq_refl)) as [Hp' Hc'].
    exists (S (measure (g_world g))). apply (recover_drain _ _ _ es'); cbn [i_data i_value i_eof]; auto; now rewrite Ho.
  - destruct Hs as (E & _). rewrite E. eexists _, _. reflexivity.
Qed.
End Recover.

Lemma stream_lines s t ls : delivers c_nl s t -> lines_of t ls -> slines (fun x => char_eqb x c_nl) s = ls.
Proof.
  intros Hd Hl. rewrite (delivers_lines _ c_nl char_newline s t Hd), <- getline_all_glines. now apply lines_of_getline.
Qed.
