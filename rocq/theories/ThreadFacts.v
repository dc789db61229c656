(** Facts about threads. *)

From Coq Require Import List Ascii String NArith ZArith Bool Lia Eqdep_dec.
From Verif Require Import Base Errors Values OptDesc Positional Cmdline Parsers VarMap Format Objects SpecStore BaseFacts EndFacts Lifetimes LifetimeFacts Threads SpecThreads.
Import ListNotations.

(** ** Memory *)

Lemma updated_same : forall mem l v, updated mem l v l = v.
Proof.
  intros mem l v. unfold updated. destruct (loc_eq_dec l l) as [e|n]; [|contradiction].
  rewrite <- (eq_rect_eq_dec loc_eq_dec). reflexivity.
Qed.

Lemma updated_other : forall mem l v l', l <> l' -> updated mem l v l' = mem l'.
Proof. intros mem l v l' H. unfold updated. destruct (loc_eq_dec l l') as [e|n]; [contradiction|reflexivity]. Qed.

(** ** A thread alone *)

Lemma run_after : forall R S (a : action R) (k : R -> action S) mem,
  run_alone mem (after a k) = let (mem1, r) := run_alone mem a in run_alone mem1 (k r).
Proof.
  induction a as [r|l f IH|l v a IH]; intros k mem; cbn [after run_alone]; [reflexivity|apply IH|apply IH].
Qed.

Lemma touches_after : forall R S (a : action R) (k : R -> action S) mem,
  touches mem (after a k) = touches mem a ++ touches (fst (run_alone mem a)) (k (snd (run_alone mem a))).
Proof.
  induction a as [r|l f IH|l v a IH]; intros k mem; cbn [after touches run_alone app]; [reflexivity|rewrite IH; reflexivity|rewrite IH; reflexivity].
Qed.

(** What is not written stays. *)
Lemma run_keeps : forall R (a : action R) mem l, ~ In (true, l) (touches mem a) -> fst (run_alone mem a) l = mem l.
Proof.
  induction a as [r|l0 f IH|l0 v a IH]; intros mem l H; cbn [touches run_alone] in *; [reflexivity|apply IH; intros X; apply H; right; exact X|].
  rewrite IH by (intros X; apply H; right; exact X). apply updated_other. intros ->. apply H. left. reflexivity.
Qed.

(** One access *)
Definition step {R} (s : memory * action R) : memory * action R :=
  match snd s with
  | Return _ => s
  | Read l k => (fst s, k (fst s l))
  | Write l v k => (updated (fst s) l v, k)
  end.

Lemma run_step : forall R (s : memory * action R), run_alone (fst (step s)) (snd (step s)) = run_alone (fst s) (snd s).
Proof. intros R [mem [r|l k|l v k]]; reflexivity. Qed.

Inductive reached {R} : memory * action R -> memory * action R -> Prop :=
| rc_here s : reached s s
| rc_step s s' : reached s s' -> reached s (step s').

Lemma reached_run : forall R (s s' : memory * action R), reached s s' -> run_alone (fst s') (snd s') = run_alone (fst s) (snd s).
Proof. intros R s s' H. induction H as [|s s' _ IH]; [reflexivity|]. rewrite run_step. exact IH. Qed.

Lemma reached_touches : forall R (s s' : memory * action R), reached s s' ->
  incl (touches (fst s') (snd s')) (touches (fst s) (snd s)).
Proof.
  intros R s s' H. induction H as [|s [mem a] _ IH]; [apply incl_refl|]. intros x Hx. apply IH. cbn [fst snd].
  destruct a as [r|l k|l v k]; cbn in *; [assumption|right; assumption|right; assumption].
Qed.

(** ** The other threads *)

Definition undisturbed {R} (mem : memory) (ts : list (action R)) (s : memory * list (action R)) : Prop :=
  List.length (snd s) = List.length ts
  /\ (forall i t, nth_error ts i = Some t -> exists memi ti, nth_error (snd s) i = Some ti /\ reached (mem, t) (memi, ti)
        /\ forall w l, In (w, l) (touches mem t) -> fst s l = memi l)
  /\ (forall l, (forall i t, nth_error ts i = Some t -> ~ In (true, l) (touches mem t)) -> fst s l = mem l).

Lemma undisturbed_start : forall R mem (ts : list (action R)), undisturbed mem ts (mem, ts).
Proof.
  intros R mem ts. split; [reflexivity|]. split; [|intros; reflexivity].
  intros i t H. exists mem, t. split; [exact H|]. split; [constructor|reflexivity].
Qed.

Lemma undisturbed_turn : forall R mem (ts : list (action R)), ~ conflict mem ts -> forall s i, undisturbed mem ts s -> undisturbed mem ts (turn s i).
Proof.
  intros R mem ts Hc [m us] i (L & I & O). unfold turn. cbn [fst snd] in *.
  destruct (nth_error us i) as [u|] eqn:Hu; [|repeat split; assumption].
  assert (Hi : exists t, nth_error ts i = Some t).
  { destruct (nth_error ts i) as [t|] eqn:Ht; [eauto|]. apply nth_error_None in Ht. rewrite <- L in Ht. apply nth_error_None in Ht. congruence. }
  destruct Hi as [t Ht]. destruct (I i t Ht) as (memi & ti & Hti & Hr & Ha). assert (ti = u) by congruence. subst ti.
  destruct u as [r|l k|l v k].
  - repeat split; assumption.
  - assert (Hin : In (false, l) (touches mem t)).
    { apply (reached_touches _ _ _ Hr). cbn. left. reflexivity. }
    split; [cbn; rewrite set_cell_length; exact L|]. split; [|exact O].
    intros j tj Hj. cbn [fst snd]. rewrite nth_set_cell. destruct (Nat.eqb_spec i j) as [<-|Hne].
    + assert (tj = t) by congruence. subst tj. rewrite Hu. exists memi, (k (memi l)). rewrite (Ha _ _ Hin).
      split; [reflexivity|]. split; [|exact Ha]. apply (rc_step _ _ Hr).
    + apply I. exact Hj.
  - assert (Hin : In (true, l) (touches mem t)).
    { apply (reached_touches _ _ _ Hr). cbn. left. reflexivity. }
    split; [cbn; rewrite set_cell_length; exact L|]. cbn [fst snd]. split.
    + intros j tj Hj. rewrite nth_set_cell. destruct (Nat.eqb_spec i j) as [<-|Hne].
      * assert (tj = t) by congruence. subst tj. rewrite Hu. exists (updated memi l v), k.
        split; [reflexivity|]. split; [apply (rc_step _ _ Hr)|]. intros w l' Hl'. destruct (loc_eq_dec l l') as [<-|Hn].
        -- rewrite !updated_same. reflexivity.
        -- rewrite !updated_other by assumption. apply (Ha w). exact Hl'.
      * destruct (I j tj Hj) as (memj & uj & Huj & Hrj & Haj). exists memj, uj. split; [exact Huj|]. split; [exact Hrj|].
        intros w l' Hl'. rewrite updated_other; [apply (Haj w); exact Hl'|]. intros <-. apply Hc.
        exists i, j, t, tj, l, w. repeat split; assumption.
    + intros l' Hl'. rewrite updated_other; [apply O; exact Hl'|]. intros <-. exact (Hl' i t Ht Hin).
Qed.

Lemma undisturbed_all : forall R mem (ts : list (action R)), ~ conflict mem ts -> forall schedule, undisturbed mem ts (interleave mem ts schedule).
Proof.
  intros R mem ts Hc schedule. unfold interleave. assert (H := undisturbed_start R mem ts). revert H. generalize (mem, ts) as s.
  induction schedule as [|i schedule IH]; intros s H; [exact H|]. cbn [fold_left]. apply IH. apply undisturbed_turn; assumption.
Qed.

(** ** Every thread comes to its end *)

Lemma turn_length : forall R (s : memory * list (action R)) i, List.length (snd (turn s i)) = List.length (snd s).
Proof.
  intros R [m us] i. unfold turn. cbn [fst snd]. destruct (nth_error us i) as [[r|l k|l v k]|]; cbn [snd]; rewrite ?set_cell_length; reflexivity.
Qed.

Lemma finish_one : forall R (t : action R) mem ts i, nth_error ts i = Some t ->
  exists n mem' r, fold_left turn (repeat i n) (mem, ts) = (mem', set_cell ts i (Return r)).
Proof.
  assert (same : forall A (l : list A) i x, nth_error l i = Some x -> set_cell l i x = l).
  { induction l as [|y l IH]; intros [|i] x H; cbn in *; try discriminate; [congruence|]. rewrite IH by assumption. reflexivity. }
  assert (twice : forall A (l : list A) i x y, set_cell (set_cell l i x) i y = set_cell l i y).
  { induction l as [|z l IH]; intros [|i] x y; cbn; try reflexivity. rewrite IH. reflexivity. }
  induction t as [r|l k IH|l v k IH]; intros mem ts i H.
  - exists 0, mem, r. cbn. rewrite same by assumption. reflexivity.
  - destruct (IH (mem l) mem (set_cell ts i (k (mem l))) i) as (n & mem' & r & E); [rewrite nth_set_cell, Nat.eqb_refl, H; reflexivity|].
    exists (S n), mem', r. cbn [repeat fold_left]. unfold turn at 2. cbn [fst snd]. rewrite H, E, twice. reflexivity.
  - destruct (IH (updated mem l v) (set_cell ts i k) i) as (n & mem' & r & E); [rewrite nth_set_cell, Nat.eqb_refl, H; reflexivity|].
    exists (S n), mem', r. cbn [repeat fold_left]. unfold turn at 2. cbn [fst snd]. rewrite H, E, twice. reflexivity.
Qed.

Lemma finish_first : forall R n mem (ts : list (action R)), n <= List.length ts ->
  exists schedule mem' ts', fold_left turn schedule (mem, ts) = (mem', ts') /\ List.length ts' = List.length ts
    /\ forall i t, i < n -> nth_error ts' i = Some t -> exists r, t = Return r.
Proof.
  induction n as [|n IH]; intros mem ts Hn.
  - exists [], mem, ts. split; [reflexivity|]. split; [reflexivity|]. intros; lia.
  - destruct (IH mem ts ltac:(lia)) as (sch & mem1 & ts1 & E & L & D).
    destruct (nth_error ts1 n) as [t|] eqn:Ht; [|apply nth_error_None in Ht; lia].
    destruct (finish_one R t mem1 ts1 n Ht) as (k & mem2 & r & E2).
    exists (sch ++ repeat n k), mem2, (set_cell ts1 n (Return r)). rewrite fold_left_app, E, E2. split; [reflexivity|].
    split; [rewrite set_cell_length; exact L|]. intros i t' Hi Ht'. rewrite nth_set_cell in Ht'. destruct (Nat.eqb_spec n i) as [<-|Hne].
    + rewrite Ht in Ht'. injection Ht' as <-. eauto.
    + apply (D i); [lia|assumption].
Qed.

Lemma finish_all : forall R mem (ts : list (action R)), exists schedule, all_done (snd (fold_left turn schedule (mem, ts))).
Proof.
  intros R mem ts. destruct (finish_first R _ mem ts (le_n _)) as (sch & mem' & ts' & E & L & D). exists sch. rewrite E. cbn [snd].
  apply Forall_forall. intros t Ht. apply In_nth_error in Ht as [i Hi]. apply (D i t); [|assumption].
  rewrite <- L. apply nth_error_Some. congruence.
Qed.

(** ** Lookups *)

Lemma index_memory : forall fuel mem m name, fst (run_alone mem (index_action fuel m name)) = mem.
Proof.
  induction fuel as [|fuel IH]; intros mem m name; cbn [index_action run_alone]; [reflexivity|]. cbn beta iota zeta.
  destruct (mo_next (mem (AtMap m))) as [b|]; [|reflexivity].
  destruct (any_empty _); [apply IH|]. destruct (vv_defaulted _); [|reflexivity].
  rewrite run_after. specialize (IH mem b name). destruct (run_alone mem (index_action fuel b name)) as [mem1 r]. cbn in *. exact IH.
Qed.

Lemma index_touches : forall fuel mem m name w l, In (w, l) (touches mem (index_action fuel m name)) ->
  w = false /\ exists k, l = AtMap k /\ looks_at mem name m k.
Proof.
  induction fuel as [|fuel IH]; intros mem m name w l H; cbn [index_action touches] in H; [contradiction|].
  destruct H as [H|H]; [injection H as <- <-; split; [reflexivity|]; exists m; split; [reflexivity|constructor]|].
  cbn beta iota zeta in H. destruct (mo_next (mem (AtMap m))) as [b|] eqn:Hn; [|contradiction].
  destruct (any_empty _) eqn:Ha.
  - apply IH in H as (-> & k & -> & Hk). split; [reflexivity|]. exists k. split; [reflexivity|]. econstructor; [eassumption| |eassumption].
    unfold explicit. intros [X _]. unfold any_empty in Ha. destruct (vv_value _); [discriminate|contradiction].
  - destruct (vv_defaulted _) eqn:Hd; [|contradiction]. rewrite touches_after in H. apply in_app_iff in H as [H|H]; [|contradiction].
    apply IH in H as (-> & k & -> & Hk). split; [reflexivity|]. exists k. split; [reflexivity|]. econstructor; [eassumption| |eassumption].
    unfold explicit. intros [_ X]. congruence.
Qed.

Lemma index_alone : forall (mem : memory) objs name, (forall i mo, nth_error objs i = Some mo -> mem (AtMap i) = mo) ->
  forall fuel m v, map_index fuel objs m name = Ok v -> snd (run_alone mem (index_action fuel m name)) = Ok v.
Proof.
  intros mem objs name Ho. induction fuel as [|fuel IH]; intros m v H; cbn [map_index] in H; [discriminate|].
  destruct (nth_error objs m) as [mo|] eqn:E; [|discriminate]. cbn [index_action run_alone]. cbn beta iota zeta. rewrite (Ho _ _ E).
  destruct (mo_next mo) as [b|]; [|exact H]. destruct (any_empty _); [apply IH; exact H|]. destruct (vv_defaulted _); [|exact H].
  apply bind_Ok in H as (v2 & H2 & H). apply IH in H2. rewrite run_after.
  destruct (run_alone mem (index_action fuel b name)) as [mem1 r]. cbn [snd] in H2. subst r. exact H.
Qed.

(** ** Assignments *)

Lemma assign_touches : forall R events mem (k : action R) w l, In (w, l) (touches mem (assign_action events k)) ->
  (exists a v, w = true /\ l = AtVariable a /\ In (EvStore a v) events) \/ exists mem', In (w, l) (touches mem' k).
Proof.
  induction events as [|ev events IH]; intros mem k w l H; cbn [assign_action] in H; [right; eauto|].
  destruct ev as [a v|f v]; cbn [touches] in H.
  - destruct H as [H|H]; [injection H as <- <-; left; exists a, v; repeat split; left; reflexivity|].
    apply IH in H as [(a' & v' & -> & -> & Hin)|H]; [left; exists a', v'; repeat split; right; exact Hin|right; exact H].
  - apply IH in H as [(a' & v' & -> & -> & Hin)|H]; [left; exists a', v'; repeat split; right; exact Hin|right; exact H].
Qed.

Lemma assign_answer : forall R events mem (r : R), snd (run_alone mem (assign_action events (Return r))) = r.
Proof. induction events as [|[a v|f v] events IH]; intros mem r; cbn [assign_action run_alone]; [reflexivity|apply IH|apply IH]. Qed.

(** The last assignment to a variable counts. *)
Lemma assign_memory : forall R events mem (r : R) a,
  fst (run_alone mem (assign_action events (Return r))) (AtVariable a)
  = fold_left (fun old ev => match ev with EvStore b v => if Nat.eqb a b then Some v else old | EvCall _ _ => old end) events (mem (AtVariable a)).
Proof.
  induction events as [|[b v|f v] events IH]; intros mem r a; cbn [assign_action run_alone fold_left]; [reflexivity| |apply IH].
  rewrite IH. f_equal. destruct (Nat.eqb_spec a b) as [<-|Hn].
  - exact (updated_same mem (AtVariable a) (Some v)).
  - apply updated_other. congruence.
Qed.

(** ** Messages *)

Definition only_message {R} (e : nat) (a : action R) : Prop := forall mem w l, In (w, l) (touches mem a) -> l = AtMessage e.

Lemma only_return : forall R e (r : R), only_message e (Return r).
Proof. intros R e r mem w l []. Qed.

Lemma only_after : forall R S e (a : action R) (k : R -> action S), only_message e a -> (forall r, only_message e (k r)) -> only_message e (after a k).
Proof. intros R S e a k Ha Hk mem w l H. rewrite touches_after in H. apply in_app_iff in H as [H|H]; [eapply Ha|eapply Hk]; exact H. Qed.

Lemma only_then : forall A B e (a : action (outcome A)) (k : A -> action (outcome B)), only_message e a -> (forall r, only_message e (k r)) -> only_message e (then_action a k).
Proof. intros A B e a k Ha Hk. apply only_after; [exact Ha|]. intros [x| | |]; auto using only_return. Qed.

Lemma only_replace : forall e fuel from to, only_message e (replace_action fuel e from to).
Proof.
  induction fuel as [|fuel IH]; intros from to mem w l H; cbn [replace_action touches] in H; [contradiction|].
  destruct H as [H|H]; [injection H as <- <-; reflexivity|]. destruct (find_sub from _); [|contradiction]. cbn [touches] in H.
  destruct H as [H|H]; [injection H as <- <-; reflexivity|]. eapply IH. exact H.
Qed.

Lemma only_defaults : forall e fuel subst ds, only_message e (defaults_action fuel e ds subst).
Proof.
  induction ds as [|[name [from to]] ds IH]; cbn [defaults_action]; [apply only_return|]. apply only_then; [|intros; exact IH].
  destruct (match sm_find name subst with None => true | Some v => is_empty v end); auto using only_return, only_replace.
Qed.

Lemma only_substitutions : forall e fuel ss, only_message e (substitutions_action fuel e ss).
Proof. induction ss as [|[name v] ss IH]; cbn [substitutions_action]; [apply only_return|]. apply only_then; [apply only_replace|intros; exact IH]. Qed.

Lemma only_substitute : forall e fuel x t, only_message e (substitute_action fuel e x t).
Proof.
  intros e fuel x t mem w l H. unfold substitute_action in H. cbn [touches] in H. destruct H as [H|H]; [injection H as <- <-; reflexivity|].
  revert H. match goal with |- In _ (touches _ ?a) -> _ => assert (O : only_message e a) end; [|intros H; eapply O; exact H].
  destruct (let* name := canonical_option_name x in let* prefix := canonical_prefix (ex_style x) in Ok (name, prefix)) as [[name prefix]| | |];
    try apply only_return.
  apply only_then; [apply only_defaults|intros _]. apply only_then; [apply only_substitutions|intros _].
  intros mem' w' l' [H|[]]. injection H as <- <-. reflexivity.
Qed.

Lemma only_what : forall e fuel x, only_message e (what_action fuel e x).
Proof.
  intros e fuel x. unfold what_action. destruct (has_option_name (ex_class x)); [|apply only_return].
  destruct (ex_class x); try apply only_substitute. destruct (_ || _)%bool; [apply only_substitute|].
  destruct (ambiguous_template _ _); auto using only_return, only_substitute.
Qed.

Lemma what_untouched : forall e fuel x mem, has_option_name (ex_class x) = false -> touches mem (what_action fuel e x) = [].
Proof. intros e fuel x mem H. unfold what_action. rewrite H. reflexivity. Qed.

(** Alone, [m_message] is the local text of the functions in Errors.v. *)
Definition computes (e : nat) (a : action (outcome unit)) (f : str -> outcome str) : Prop :=
  forall mem, snd (run_alone mem a) = (let* _ := f (mem (AtMessage e)) in Ok tt)
    /\ forall msg, f (mem (AtMessage e)) = Ok msg -> fst (run_alone mem a) (AtMessage e) = msg.

Lemma computes_return : forall e, computes e (Return (Ok tt)) (fun msg => Ok msg).
Proof. intros e mem. split; [reflexivity|]. intros msg H. injection H as <-. reflexivity. Qed.

Lemma computes_then : forall e a f b g, computes e a f -> computes e b g ->
  computes e (then_action a (fun _ => b)) (fun msg => let* msg' := f msg in g msg').
Proof.
  intros e a f b g Ha Hb mem. destruct (Ha mem) as [A1 A2]. unfold then_action. rewrite run_after.
  destruct (run_alone mem a) as [mem1 r]. cbn [fst snd] in *. destruct (f (mem (AtMessage e))) as [msg| | |]; cbn [bind] in *; subst r.
  - specialize (A2 msg eq_refl). destruct (Hb mem1) as [B1 B2]. rewrite A2 in B1, B2. split; [exact B1|exact B2].
  - split; [reflexivity|discriminate].
  - split; [reflexivity|discriminate].
  - split; [reflexivity|discriminate].
Qed.

Lemma computes_replace : forall e fuel from to, computes e (replace_action fuel e from to) (replace_token fuel from to).
Proof.
  induction fuel as [|fuel IH]; intros from to mem; cbn [replace_action run_alone replace_token].
  - split; [reflexivity|discriminate].
  - cbn beta iota zeta. destruct (find_sub from (mem (AtMessage e))) as [pos|].
    + cbn [run_alone]. destruct (IH from to (updated mem (AtMessage e) (firstn pos (mem (AtMessage e)) ++ to ++ skipn (pos + List.length from) (mem (AtMessage e))))) as [B1 B2].
      rewrite updated_same in B1, B2. split; [exact B1|exact B2].
    + split; [reflexivity|]. intros msg H. injection H as <-. reflexivity.
Qed.

Lemma computes_ext : forall e a f g, computes e a f -> (forall m, f m = g m) -> computes e a g.
Proof. intros e a f g H E mem. rewrite <- !E. apply H. Qed.

Lemma computes_defaults : forall e fuel subst ds, computes e (defaults_action fuel e ds subst) (apply_defaults fuel ds subst).
Proof.
  induction ds as [|[name [from to]] ds IH]; cbn [defaults_action apply_defaults]; [apply computes_return|].
  eapply computes_ext.
  - apply computes_then; [|exact IH].
    instantiate (1 := fun msg => if match sm_find name subst with None => true | Some v => is_empty v end then replace_token fuel from to msg else Ok msg).
    destruct (match sm_find name subst with None => true | Some v => is_empty v end); [apply computes_replace|apply computes_return].
  - reflexivity.
Qed.

Lemma computes_substitutions : forall e fuel ss, computes e (substitutions_action fuel e ss) (apply_substitutions fuel ss).
Proof.
  induction ss as [|[name v] ss IH]; cbn [substitutions_action apply_substitutions]; [apply computes_return|].
  eapply computes_ext; [apply computes_then; [apply computes_replace|exact IH]|reflexivity].
Qed.

Lemma substitute_alone : forall e fuel x t mem, snd (run_alone mem (substitute_action fuel e x t)) = substitute_placeholders fuel x t.
Proof.
  intros e fuel x t mem. unfold substitute_action, substitute_placeholders. cbn [run_alone].
  destruct (canonical_option_name x) as [name| | |]; cbn [bind]; try reflexivity.
  destruct (canonical_prefix (ex_style x)) as [prefix| | |]; cbn [bind]; try reflexivity.
  set (subst := sm_set _ _ _). set (mem0 := updated mem _ _).
  destruct (computes_defaults e fuel subst substitution_defaults mem0) as [D1 D2].
  unfold then_action at 1. rewrite run_after. destruct (run_alone mem0 (defaults_action fuel e substitution_defaults subst)) as [mem1 r].
  cbn [fst snd] in *. replace (mem0 (AtMessage e)) with t in D1, D2 by (symmetry; apply (updated_same mem (AtMessage e))).
  destruct (apply_defaults fuel substitution_defaults subst t) as [msg| | |]; cbn [bind] in *; subst r; try reflexivity.
  specialize (D2 msg eq_refl). destruct (computes_substitutions e fuel subst mem1) as [S1 S2]. rewrite D2 in S1, S2.
  unfold then_action. rewrite run_after. destruct (run_alone mem1 (substitutions_action fuel e subst)) as [mem2 r]. cbn [fst snd] in *.
  destruct (apply_substitutions fuel subst msg) as [msg'| | |]; cbn [bind] in *; subst r; try reflexivity.
  cbn [run_alone snd]. rewrite (S2 msg' eq_refl). reflexivity.
Qed.

Lemma what_alone : forall e fuel x mem, snd (run_alone mem (what_action fuel e x)) = what fuel x.
Proof.
  intros e fuel x mem. unfold what_action, what. destruct (has_option_name (ex_class x)); [|reflexivity].
  destruct (ex_class x); try apply substitute_alone. destruct (_ || _)%bool; [apply substitute_alone|].
  destruct (ambiguous_template _ _); cbn [bind]; try reflexivity. apply substitute_alone.
Qed.

(** ** Calls *)

Lemma call_accesses : forall fuel ndebug mem c w l, In (w, l) (touches mem (call_action fuel ndebug c)) -> accesses mem c w l.
Proof.
  intros fuel ndebug mem c w l H. destruct c as [x read|x width|x d|p x m utf8|m|m name|m n|a|e x]; cbn [call_action touches] in H.
  - destruct H as [H|[]]. injection H as <- <-. constructor.
  - destruct H as [H|[]]. injection H as <- <-. constructor.
  - destruct H as [H|[H|[]]]; injection H as <- <-; constructor.
  - cbn beta iota zeta in H. destruct (store _ _ _) as [vm r]. cbn [touches] in H. destruct H as [H|[H|[H|[]]]]; injection H as <- <-; constructor.
  - destruct H as [H|H]; [injection H as <- <-; constructor|]. cbn beta iota zeta in H.
    destruct (notify (mo_map (mem (AtMap m)))) as [events r] eqn:E.
    apply assign_touches in H as [(a & v & -> & -> & Hin)|(mem' & H)]; [|contradiction].
    apply as_notify_to with v. rewrite E. exact Hin.
  - rewrite touches_after in H. apply in_app_iff in H as [H|H]; [|contradiction]. apply index_touches in H as (-> & k & -> & Hk). constructor. exact Hk.
  - destruct H as [H|[H|[]]]; injection H as <- <-; constructor.
  - destruct H as [H|[]]. injection H as <- <-. constructor.
  - rewrite touches_after in H. apply in_app_iff in H as [H|H]; [|contradiction].
    destruct (has_option_name (ex_class x)) eqn:Hc; [|rewrite what_untouched in H by exact Hc; contradiction].
    apply only_what in H. subst l. constructor. exact Hc.
Qed.

(** ** Threads with their own objects *)

Definition sound_entry (own : property) (kv : str * variable_value) : Prop := forall s, vv_sem (snd kv) = Some s -> gives_to own s.

Lemma set_sound : forall own k v m, Forall (sound_entry own) m -> sound_entry own (k, v) -> Forall (sound_entry own) (sm_set k v m).
Proof.
  intros own k v m H Hv. induction m as [|[k' v'] m IH]; cbn [sm_set]; [repeat constructor; assumption|].
  destruct (str_cmp k k'); [constructor; [assumption|exact (Forall_inv_tail H)]|constructor; assumption|].
  constructor; [exact (Forall_inv H)|apply IH; exact (Forall_inv_tail H)].
Qed.

Lemma find_sound : forall own k v m, Forall (sound_entry own) m -> sm_find k m = Some v -> sound_entry own (k, v).
Proof.
  intros own k v m H. induction H as [|[k' v'] m Hv _ IH]; cbn [sm_find]; [discriminate|].
  destruct (str_eqb_spec k k') as [->|]; [intros X; injection X as <-; exact Hv|exact IH].
Qed.

Lemma store_options_sound : forall own ds prefix final utf8 opts m nf m' nf' r,
  Forall (fun d => gives_to own (od_sem d)) ds -> Forall (sound_entry own) m ->
  store_options ds prefix final utf8 opts m nf = (m', nf', r) -> Forall (sound_entry own) m'.
Proof.
  intros own ds prefix final utf8 opts. induction opts as [|o opts IH]; intros m nf m' nf' r Hd Hm H; cbn [store_options] in H.
  - injection H as <- _ _. exact Hm.
  - destruct (is_empty (po_key o)); [eauto|]. destruct (po_unreg o); [eauto|]. destruct (ss_mem (po_key o) final); [eauto|].
    destruct (find ds (po_key o) false false false) as [d|e|u|] eqn:F; try (injection H as <- _ _; exact Hm).
    apply find_In in F. set (v0 := match sm_find (po_key o) m with Some v => v | None => vv_empty end) in H.
    set (v1 := if vv_defaulted v0 then vv_empty else v0) in H.
    assert (S1 : forall b a, sound_entry own (po_key o, mk_vv a b (vv_sem v1))).
    { intros b a s. cbn. unfold v1. destruct (vv_defaulted v0); [discriminate|]. unfold v0. destruct (sm_find (po_key o) m) as [v|] eqn:Fm; [|discriminate].
      exact (find_sound own _ _ _ Hm Fm s). }
    destruct (vs_parse (od_sem d) (vv_value v1) (po_value o) utf8) as [a [[]|e|u|]].
    + eapply IH; [exact Hd| |exact H]. apply set_sound; [exact Hm|]. intros s X. cbn in X. injection X as <-.
      rewrite Forall_forall in Hd. apply Hd. exact F.
    + injection H as <- _ _. apply set_sound; [exact Hm|apply S1].
    + injection H as <- _ _. exact Hm.
    + injection H as <- _ _. exact Hm.
Qed.

Lemma store_defaults_sound : forall own ds prefix m req m' req',
  Forall (fun d => gives_to own (od_sem d)) ds -> Forall (sound_entry own) m ->
  store_defaults ds prefix m req = (m', req') -> Forall (sound_entry own) m'.
Proof.
  intros own ds prefix. induction ds as [|d ds IH]; intros m req m' req' Hd Hm H; cbn [store_defaults] in H.
  - injection H as <- _. exact Hm.
  - destruct (is_empty (od_key d [])); [eapply IH; [exact (Forall_inv_tail Hd)|exact Hm|exact H]|].
    eapply IH; [exact (Forall_inv_tail Hd)| |exact H]. destruct (sm_mem (od_key d []) m); [exact Hm|].
    destruct (vs_default (od_sem d)); [|exact Hm]. apply set_sound; [exact Hm|]. intros s X. cbn in X. injection X as <-. exact (Forall_inv Hd).
Qed.

Lemma store_sound : forall own p ds vm utf8 vm' r, Forall (fun d => gives_to own (od_sem d)) ds ->
  Forall (sound_entry own) (vm_map vm) -> store (mk_parsed (pr_options p) (Some ds) (pr_prefix p)) vm utf8 = (vm', r) ->
  Forall (sound_entry own) (vm_map vm').
Proof.
  intros own p ds vm utf8 vm' r Hd Hm H. unfold store in H. cbn [pr_desc pr_prefix pr_options] in H.
  destruct (store_options ds (pr_prefix p) (vm_final vm) utf8 (pr_options p) (vm_map vm) []) as [[m nf] o] eqn:E.
  apply store_options_sound with (own := own) in E; [|exact Hd|exact Hm].
  destruct o as [[]|e|u|]; try (injection H as <- _; exact E).
  destruct (store_defaults ds (pr_prefix p) m (vm_required vm)) as [m' req] eqn:E2. injection H as <- _. cbn.
  eapply store_defaults_sound; eassumption.
Qed.

Lemma notify_sound : forall own vm a v, Forall (sound_entry own) (vm_map vm) -> In (EvStore a v) (fst (notify vm)) -> own_variables own a.
Proof.
  intros own vm a v Hm H. unfold notify in H. destruct (check_required _ _); try contradiction.
  induction Hm as [|[k x] m Hx _ IH]; cbn [run_notify] in H; [contradiction|].
  destruct (vv_sem x) as [s|] eqn:Es; [|auto]. specialize (Hx s Es).
  destruct (vs_notify s (vv_value x)) as [ev r] eqn:En. assert (Hev : In (EvStore a v) ev -> own_variables own a).
  { intros Hin. apply (Hx (vv_value x) a v). rewrite En. exact Hin. }
  destruct r as [u| | |]; try (apply Hev; exact H). destruct (run_notify m) as [ev' r']. cbn [fst] in *. apply in_app_iff in H as [H|H]; auto.
Qed.

(** What a thread may do to an object *)
Definition allowed (own : property) (w : bool) (l : loc) : Prop :=
  match l with
  | AtDesc _ => w = false
  | AtMap m => own_maps own m
  | AtVariable a => own_variables own a
  | AtMessage e => own_errors own e
  end.

Lemma looks_own : forall own mem name m k, own_start own mem -> own_maps own m -> looks_at mem name m k -> own_maps own k.
Proof. intros own mem name m k Hs Hm H. induction H as [m|m n k Hn _ _ IH]; [exact Hm|]. apply IH. apply (proj1 (Hs m Hm)). exact Hn. Qed.

Lemma accesses_own : forall own mem c w l, own_start own mem -> own_call own mem c -> accesses mem c w l -> allowed own w l.
Proof.
  intros own mem c w l Hs Hc H. destruct H; cbn in *; try reflexivity; try tauto.
  - apply (notify_sound own) in H; [exact H|]. apply (proj2 (Hs m Hc)).
  - eapply looks_own; eassumption.
Qed.

Lemma desc_kept : forall fuel ndebug own mem c x, own_call own mem c ->
  fst (run_alone mem (call_action fuel ndebug c)) (AtDesc x) = mem (AtDesc x).
Proof.
  intros fuel ndebug own mem c x Hc. apply run_keeps. intros H. apply call_accesses in H. inversion H; subst. exact Hc.
Qed.

Definition access_eq_dec (a b : bool * loc) : {a = b} + {a <> b}.
Proof. decide equality; [apply loc_eq_dec|apply bool_dec]. Defined.

Lemma maps_kept : forall fuel ndebug own mem c, own_start own mem -> own_call own mem c ->
  own_start own (fst (run_alone mem (call_action fuel ndebug c))).
Proof.
  intros fuel ndebug own mem c Hs Hc m Hm.
  destruct (in_dec access_eq_dec (true, AtMap m) (touches mem (call_action fuel ndebug c))) as [K|K]; [|rewrite (run_keeps _ _ _ _ K); apply Hs; exact Hm].
  apply call_accesses in K. inversion K; subst; cbn [own_call] in Hc.
  - destruct Hc as [_ Hd]. cbn [call_action run_alone]. cbn beta iota zeta.
    destruct (store _ _ _) as [vm r] eqn:E. cbn [run_alone fst].
    replace (updated mem (AtMap m) {| mo_map := vm; mo_next := mo_next (mem (AtMap m)) |} (AtMap m)) with (mk_mo vm (mo_next (mem (AtMap m))))
      by (symmetry; apply (updated_same mem (AtMap m))).
    cbn [mo_map mo_next]. destruct (Hs m Hm) as [S1 S2]. split; [exact S1|]. eapply store_sound; eassumption.
  - destruct Hc as [_ Hn]. cbn [call_action run_alone fst]. cbn beta iota zeta.
    replace (updated mem (AtMap m) {| mo_map := mo_map (mem (AtMap m)); mo_next := n |} (AtMap m)) with (mk_mo (mo_map (mem (AtMap m))) n)
      by (symmetry; apply (updated_same mem (AtMap m))).
    cbn [mo_map mo_next]. split; [exact Hn|]. apply (proj2 (Hs m Hm)).
Qed.

Lemma own_call_ext : forall own (mem mem' : memory) c, (forall x, mem' (AtDesc x) = mem (AtDesc x)) -> own_call own mem c -> own_call own mem' c.
Proof. intros own mem mem' c E. destruct c; cbn [own_call]; try (intros H; exact H). rewrite E. auto. Qed.

Lemma own_program_ext : forall own (mem mem' : memory) p, (forall x, mem' (AtDesc x) = mem (AtDesc x)) -> own_program own mem p -> own_program own mem' p.
Proof.
  intros own mem mem' p E. induction p as [|c k IH]; cbn [own_program]; [auto|]. intros [Hc Hk]. split; [eapply own_call_ext; eassumption|auto].
Qed.

Lemma program_own : forall fuel ndebug own p mem w l, own_start own mem -> own_program own mem p ->
  In (w, l) (touches mem (thread_action fuel ndebug p)) -> allowed own w l.
Proof.
  intros fuel ndebug own. induction p as [|c k IH]; intros mem w l Hs Hp H; cbn [thread_action touches] in H; [contradiction|].
  destruct Hp as [Hc Hk]. rewrite touches_after in H. apply in_app_iff in H as [H|H].
  - apply call_accesses in H. eapply accesses_own; eassumption.
  - rewrite touches_after in H. apply in_app_iff in H as [H|H]; [|contradiction].
    eapply IH; [eapply maps_kept; eassumption| |exact H]. eapply own_program_ext; [|apply Hk]. intros x. eapply desc_kept. exact Hc.
Qed.

(** ** Races *)

Lemma next_touches : forall R (a : action R) mem w l, next_access a = Some (w, l) -> In (w, l) (touches mem a).
Proof. intros R a mem w l H. destruct a; cbn in *; [discriminate| |]; injection H as <- <-; left; reflexivity. Qed.

Lemma undisturbed_race : forall R mem (ts : list (action R)) s, ~ conflict mem ts -> undisturbed mem ts s -> ~ race (snd s).
Proof.
  intros R mem ts s Hc (L & H & _) (i & j & t & u & l & w & Hij & Hi & Hj & Ht & Hu).
  assert (K : forall n, n < List.length (snd s) -> exists t0, nth_error ts n = Some t0).
  { intros n Hn. rewrite L in Hn. destruct (nth_error ts n) eqn:E; [eauto|]. apply nth_error_None in E. lia. }
  destruct (K i) as [t0 Ei]; [apply nth_error_Some; congruence|]. destruct (K j) as [u0 Ej]; [apply nth_error_Some; congruence|].
  destruct (H i t0 Ei) as (mi & ti & Hti & Ri & _). destruct (H j u0 Ej) as (mj & uj & Huj & Rj & _).
  assert (ti = t) by congruence. assert (uj = u) by congruence. subst ti uj. apply Hc. exists i, j, t0, u0, l, w.
  repeat split; try assumption.
  - apply (reached_touches _ _ _ Ri). apply next_touches. exact Ht.
  - apply (reached_touches _ _ _ Rj). apply next_touches. exact Hu.
Qed.

(** ** Threads that only look *)

Lemma looks_accesses : forall mem c w l, only_looks c -> accesses mem c w l -> w = false.
Proof.
  intros mem c w l [Hc Hw] H. destruct H; cbn in Hc; try discriminate; try reflexivity. specialize (Hw _ _ eq_refl). congruence.
Qed.

Lemma looking_touches : forall fuel ndebug p mem w l, only_looking p -> In (w, l) (touches mem (thread_action fuel ndebug p)) -> w = false.
Proof.
  intros fuel ndebug. induction p as [|c k IH]; intros mem w l Hp H; cbn [thread_action touches] in H; [contradiction|].
  destruct Hp as [Hc Hk]. rewrite touches_after in H. apply in_app_iff in H as [H|H].
  - apply call_accesses in H. eapply looks_accesses; eassumption.
  - rewrite touches_after in H. apply in_app_iff in H as [H|H]; [|contradiction]. eapply IH; [apply Hk|exact H].
Qed.

Lemma left_in_fold : forall events a old,
  left_in a events old (fold_left (fun old ev => match ev with EvStore b v => if Nat.eqb a b then Some v else old | EvCall _ _ => old end) events old).
Proof.
  intros events a. induction events as [|ev events IH]; intros old; cbn [fold_left]; [left; split; [reflexivity|intros x []]|].
  destruct ev as [b v|f v].
  - destruct (Nat.eqb_spec a b) as [<-|Hn].
    + destruct (IH (Some v)) as [[E N]|(x & b1 & r1 & E & -> & N)].
      * right. exists v, [], events. repeat split; assumption.
      * right. exists x, (EvStore a v :: b1), r1. repeat split; assumption.
    + destruct (IH old) as [[E N]|(x & b1 & r1 & E & -> & N)].
      * left. split; [exact E|]. intros x [X|X]; [congruence|exact (N x X)].
      * right. exists x, (EvStore b v :: b1), r1. repeat split; assumption.
  - destruct (IH old) as [[E N]|(x & b1 & r1 & E & -> & N)].
    + left. split; [exact E|]. intros x [X|X]; [discriminate|exact (N x X)].
    + right. exists x, (EvCall f v :: b1), r1. repeat split; assumption.
Qed.

Lemma assign_others : forall R events mem (r : R) l, (forall a, l <> AtVariable a) ->
  fst (run_alone mem (assign_action events (Return r))) l = mem l.
Proof.
  intros R events mem r l Hl. apply run_keeps. intros H. apply assign_touches in H as [(a & v & _ & E & _)|(mem' & [])]. exact (Hl a E).
Qed.

Lemma program_disjoint : forall fuel ndebug mem owns ps,
  Forall2 (fun own p => own_start own mem /\ own_program own mem p) owns ps ->
  (forall i j a b, i <> j -> nth_error owns i = Some a -> nth_error owns j = Some b -> disjoint a b) ->
  ~ conflict mem (map (thread_action fuel ndebug) ps).
Proof.
  intros fuel ndebug mem owns ps H D (i & j & t & u & l & w & Hij & Hi & Hj & Ht & Hu).
  assert (K : forall n t, nth_error (map (thread_action fuel ndebug) ps) n = Some t ->
    exists own p, nth_error owns n = Some own /\ own_start own mem /\ own_program own mem p /\ t = thread_action fuel ndebug p).
  { clear - H. induction H as [|own p owns ps [Hs Hp] _ IH]; intros n t E; [destruct n; discriminate|].
    destruct n as [|n]; cbn in E; [|exact (IH n t E)]. injection E as <-. exists own, p. auto. }
  apply K in Hi as (a & p & Ha & Sa & Pa & ->). apply K in Hj as (b & q & Hb & Sb & Pb & ->).
  apply program_own with (own := a) in Ht; [|assumption|assumption]. apply program_own with (own := b) in Hu; [|assumption|assumption].
  destruct (D i j a b Hij Ha Hb) as (D1 & D2 & D3). destruct l; cbn in Ht, Hu; [discriminate|exact (D1 _ Ht Hu)|exact (D2 _ Ht Hu)|exact (D3 _ Ht Hu)].
Qed.
