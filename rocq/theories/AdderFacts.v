(** Proofs about the objects that [add_options()] returns. *)

From Coq Require Import Ascii String List NArith ZArith Bool Lia.
From Verif Require Import Base Errors Spec Values OptDesc SpecBuild Build BuildFacts Objects Lifetimes LifetimeFacts Adders SpecAdders.
Import ListNotations.

Section Facts.
Variable flag : value_semantic.

Lemma run_snoc p c w : adder_run flag w (p ++ [c]) = let* w1 := adder_run flag w p in adder_step flag w1 c.
Proof.
  revert w. induction p as [|d p IH]; intros w; cbn [app adder_run bind].
  - now destruct (adder_step flag w c).
  - destruct (adder_step flag w d); cbn [bind]; auto.
Qed.

Lemma run_snoc_inv p c w : adder_run flag adder_start (p ++ [c]) = Ok w ->
  exists w1, adder_run flag adder_start p = Ok w1 /\ adder_step flag w1 c = Ok w.
Proof. rewrite run_snoc. destruct (adder_run flag adder_start p); cbn [bind]; try discriminate. eauto. Qed.

Lemma the_owner_Ok l e x : the_owner l e = Ok x <-> nth_error l e = Some x.
Proof. unfold the_owner. destruct (nth_error l e); split; intros H; try discriminate; now injection H as ->. Qed.

Lemma fetch_Ok {A} (l : list (option A)) i x : fetch l i = Ok x <-> nth_error l i = Some (Some x).
Proof. unfold fetch. destruct (nth_error l i) as [[y|]|]; split; intros H; try discriminate; now injection H as ->. Qed.

Lemma set_cell_middle {A} (l1 l2 : list A) y x : set_cell (l1 ++ y :: l2) (List.length l1) x = l1 ++ x :: l2.
Proof. induction l1 as [|z l1 IH]; cbn [app List.length set_cell]; [reflexivity|now rewrite IH]. Qed.

(** What each call leaves *)
Lemma step_inv w c w' : adder_step flag w c = Ok w' ->
  match c with
  | ADesc c' => life_desc (aw_descs w) c' = Ok (aw_descs w') /\ aw_owners w' = aw_owners w
  | AAdder x => (exists v, nth_error (aw_descs w) x = Some (Some v)) /\ w' = mk_aw (aw_descs w) (aw_owners w ++ [x])
  | ACopyAdder e => exists x, nth_error (aw_owners w) e = Some x /\ w' = mk_aw (aw_descs w) (aw_owners w ++ [x])
  | ASetAdder e f => exists xs y ys x, aw_owners w = xs ++ y :: ys /\ List.length xs = e
      /\ nth_error (aw_owners w) f = Some x /\ w' = mk_aw (aw_descs w) (xs ++ x :: ys)
  | ADeclare e a => exists x, nth_error (aw_owners w) e = Some x /\ declare_at flag (aw_descs w) x a = Ok (aw_descs w')
      /\ aw_owners w' = aw_owners w
  | ADirect x a => declare_at flag (aw_descs w) x a = Ok (aw_descs w') /\ aw_owners w' = aw_owners w
  | AEnd x => (exists v, nth_error (aw_descs w) x = Some (Some v)) /\ w' = mk_aw (set_cell (aw_descs w) x None) (aw_owners w)
  end.
Proof.
  intros H. destruct c as [c|x|e|e f|e a|x a|x]; cbn [adder_step] in H.
  - destruct (life_desc _ c); try discriminate. injection H as <-. now split.
  - destruct (fetch _ x) as [v| | |] eqn:E; try discriminate. injection H as <-. apply fetch_Ok in E. eauto.
  - destruct (the_owner _ e) as [x| | |] eqn:E; try discriminate. injection H as <-. apply the_owner_Ok in E. eauto.
  - destruct (the_owner _ e) as [y| | |] eqn:E; try discriminate. cbn [bind] in H.
    destruct (the_owner _ f) as [x| | |] eqn:F; try discriminate. injection H as <-.
    apply the_owner_Ok in E, F. apply nth_error_split in E as (xs & ys & E & L). exists xs, y, ys, x.
    split; [assumption|]. split; [assumption|]. split; [assumption|]. f_equal. now rewrite E, <- L, set_cell_middle.
  - destruct (the_owner _ e) as [x| | |] eqn:E; try discriminate. cbn [bind] in H. apply the_owner_Ok in E.
    destruct (declare_at _ _ x a) eqn:D; try discriminate. injection H as <-. eauto.
  - destruct (declare_at _ _ x a) eqn:D; try discriminate. injection H as <-. auto.
  - unfold alive in H. destruct (nth_error _ x) as [[v|]|] eqn:E; try discriminate. injection H as <-. eauto.
Qed.

Lemma belong_run p : forall w, adder_run flag adder_start p = Ok w -> belong p (aw_owners w).
Proof.
  induction p as [|c p IH] using rev_ind; intros w H.
  - injection H as <-. constructor.
  - apply run_snoc_inv in H as (w1 & R & S). specialize (IH _ R). apply step_inv in S. destruct c as [c|x|e|e f|e a|x a|x].
    + destruct S as [_ ->]. now apply be_other.
    + destruct S as [_ ->]. now apply be_made.
    + destruct S as (x & N & ->). eapply be_copied; eassumption.
    + destruct S as (xs & y & ys & x & E & <- & N & ->). cbn [aw_owners]. rewrite E in *. eapply be_assigned; eassumption.
    + destruct S as (x & _ & _ & ->). now apply be_other.
    + destruct S as [_ ->]. now apply be_other.
    + destruct S as [_ ->]. now apply be_other.
Qed.

Lemma belong_one p xs : belong p xs -> forall ys, belong p ys -> xs = ys.
Proof.
  induction 1 as [|p xs x _ IH|p xs e x _ IH N|p xs y ys f x _ IH N|p xs c _ IH N]; intros zs B; inversion B as
    [P|p' xs' x' B' P|p' xs' e' x' B' N' P|p' xs' y' ys' f' x' B' N' P|p' xs' c' B' N' P]; subst;
    try (symmetry in P; now apply app_cons_not_nil in P); try (apply app_cons_not_nil in P; contradiction);
    try (apply app_inj_tail in P as [-> P]; try discriminate; try (subst; cbn in *; tauto)); try reflexivity.
  - injection P as ->. now rewrite (IH _ B').
  - injection P as ->. rewrite (IH _ B') in *. rewrite N in N'. now injection N' as ->.
  - injection P as L ->. assert (E := IH _ B'). assert (X : xs = xs' /\ y :: ys = y' :: ys').
    { clear - E L. revert xs' L E. induction xs as [|z xs IHx]; intros [|z' xs'] L E; try discriminate; auto.
      cbn in *. injection L as L. injection E as -> E. symmetry in L. destruct (IHx xs' (eq_sym L) E) as [-> ?]. auto. }
    destruct X as [-> X]. injection X as -> ->. rewrite N in N'. now injection N' as ->.
  - now apply IH.
Qed.

(** Cells stay, and only [AEnd] empties them. *)
Lemma desc_cells l c l' : life_desc l c = Ok l' ->
  List.length l <= List.length l' /\ forall x, nth_error l x = Some None <-> nth_error l' x = Some None.
Proof.
  assert (App : forall v : options_description, List.length l <= List.length (l ++ [Some v])
    /\ forall x, nth_error l x = Some None <-> nth_error (l ++ [Some v]) x = Some None).
  { intros v. rewrite app_length. split; [cbn; lia|]. intros x. rewrite nth_app_one.
    destruct (Nat.eqb_spec x (List.length l)) as [->|_]; [|tauto].
    replace (nth_error l (List.length l)) with (@None (option options_description)) by (symmetry; now apply nth_error_None).
    split; discriminate. }
  assert (Set_ : forall a (u v : options_description), nth_error l a = Some (Some u) ->
    List.length l <= List.length (set_cell l a (Some v))
    /\ forall x, nth_error l x = Some None <-> nth_error (set_cell l a (Some v)) x = Some None).
  { intros a u v E. rewrite set_cell_length. split; [lia|]. intros x. rewrite nth_set_cell.
    destruct (Nat.eqb_spec a x) as [<-|_]; [|tauto]. rewrite E. split; discriminate. }
  intros H. destruct c as [cap ll md|b|a d|a b]; cbn [life_desc] in H.
  - destruct (new_options cap ll md); try discriminate. injection H as <-. apply App.
  - destruct (fetch l b); try discriminate. injection H as <-. apply App.
  - destruct (fetch l a) as [u| | |] eqn:E; try discriminate. injection H as <-. apply fetch_Ok in E. eapply Set_. exact E.
  - destruct (fetch l a) as [u| | |] eqn:E; try discriminate. cbn [bind] in H.
    destruct (fetch l b); try discriminate. cbn [bind] in H.
    destruct (_ && _); try discriminate. injection H as <-. apply fetch_Ok in E. eapply Set_. exact E.
Qed.

Lemma declare_cells l x a l' : declare_at flag l x a = Ok l' ->
  exists u v, nth_error l x = Some (Some u) /\ easy_init flag u a = Ok v /\ l' = set_cell l x (Some v).
Proof.
  unfold declare_at. destruct (fetch l x) as [u| | |] eqn:E; try discriminate. cbn [bind].
  destruct (easy_init flag u a) as [v| | |] eqn:I; try discriminate. cbn [bind]. intros [= <-]. apply fetch_Ok in E. eauto.
Qed.

Lemma declare_none l x a l' : declare_at flag l x a = Ok l' ->
  List.length l <= List.length l' /\ forall y, nth_error l y = Some None <-> nth_error l' y = Some None.
Proof.
  intros H. apply declare_cells in H as (u & v & E & _ & ->). rewrite set_cell_length. split; [lia|]. intros y. rewrite nth_set_cell.
  destruct (Nat.eqb_spec x y) as [<-|_]; [|tauto]. rewrite E. split; discriminate.
Qed.

Lemma in_snoc {A} (p : list A) c d : In d (p ++ [c]) <-> In d p \/ c = d.
Proof. rewrite in_app_iff. cbn. tauto. Qed.

Lemma cells_run p : forall w, adder_run flag adder_start p = Ok w ->
  (forall x, In x (aw_owners w) -> x < List.length (aw_descs w))
  /\ forall x, nth_error (aw_descs w) x = Some None <-> ended p x.
Proof.
  unfold ended. induction p as [|c p IH] using rev_ind; intros w H.
  - injection H as <-. split; [intros x []|]. intros x. cbn. split; [destruct x; discriminate|intros []].
  - apply run_snoc_inv in H as (w1 & R & S). destruct (IH _ R) as [Io Ie]. apply step_inv in S.
    assert (Keep : forall l l' : list (option options_description), List.length l <= List.length l'
        /\ (forall x, nth_error l x = Some None <-> nth_error l' x = Some None) ->
      (forall x, In x (aw_owners w1) -> x < List.length l) /\ (forall x, nth_error l x = Some None <-> In (AEnd x) p) ->
      (forall x, c <> AEnd x) ->
      (forall x, In x (aw_owners w1) -> x < List.length l')
      /\ forall x, nth_error l' x = Some None <-> In (AEnd x) (p ++ [c])).
    { intros l l' [L E] [A B] N. split; [intros x X; specialize (A x X); lia|]. intros x. rewrite <- E, B, in_snoc.
      split; [tauto|]. intros [X|X]; [assumption|now destruct (N x)]. }
    destruct c as [c|x|e|e f|e a|x a|x].
    + destruct S as [D O]. rewrite O. apply Keep with (aw_descs w1); [now apply (desc_cells _ _ _ D)|now split|discriminate].
    + destruct S as [(v & V) ->]. cbn [aw_owners aw_descs]. split.
      * intros y Y. apply in_snoc in Y as [Y|<-]; [auto|]. apply nth_error_Some. congruence.
      * intros y. rewrite Ie, in_snoc. split; [tauto|]. intros [X|X]; [assumption|discriminate].
    + destruct S as (x & N & ->). cbn [aw_owners aw_descs]. split.
      * intros y Y. apply in_snoc in Y as [Y|<-]; [auto|]. apply Io. eapply nth_error_In. exact N.
      * intros y. rewrite Ie, in_snoc. split; [tauto|]. intros [X|X]; [assumption|discriminate].
    + destruct S as (xs & y & ys & x & E & _ & N & ->). cbn [aw_owners aw_descs]. split.
      * intros z Z. apply in_app_iff in Z as [Z|[<-|Z]].
        -- apply Io. rewrite E. apply in_app_iff. now left.
        -- apply Io. eapply nth_error_In. exact N.
        -- apply Io. rewrite E. apply in_app_iff. right. now right.
      * intros z. rewrite Ie, in_snoc. split; [tauto|]. intros [X|X]; [assumption|discriminate].
    + destruct S as (x & _ & D & O). rewrite O. apply Keep with (aw_descs w1); [now apply (declare_none _ _ _ _ D)|now split|discriminate].
    + destruct S as [D O]. rewrite O. apply Keep with (aw_descs w1); [now apply (declare_none _ _ _ _ D)|now split|discriminate].
    + destruct S as [(v & V) ->]. cbn [aw_owners aw_descs]. rewrite set_cell_length. split; [assumption|].
      intros y. rewrite nth_set_cell, in_snoc, <- Ie. destruct (Nat.eqb_spec x y) as [<-|N].
      * rewrite V. split; auto.
      * split; [tauto|]. intros [X|X]; [assumption|]. now injection X as ->.
Qed.

(** The description an object belongs to is there until it ends. *)
Lemma owner_there p w xs e x : adder_run flag adder_start p = Ok w -> belong p xs -> nth_error xs e = Some x ->
  nth_error (aw_owners w) e = Some x
  /\ (ended p x -> nth_error (aw_descs w) x = Some None)
  /\ (~ ended p x -> exists v, nth_error (aw_descs w) x = Some (Some v)).
Proof.
  intros R B N. rewrite (belong_one _ _ B _ (belong_run _ _ R)) in N. destruct (cells_run _ _ R) as [Io Ie].
  split; [assumption|]. split; [apply Ie|]. intros K. destruct (nth_error (aw_descs w) x) as [[v|]|] eqn:E; eauto.
  - apply Ie in E. contradiction.
  - apply nth_error_None in E. apply nth_error_In in N. apply Io in N. lia.
Qed.

Lemma directly_run p q : written_directly p q -> forall w, adder_run flag adder_start p = Ok w ->
  adder_run flag adder_start q = Ok (mk_aw (aw_descs w) []).
Proof.
  induction 1 as [|p q c _ IH Hc|p q xs e x a _ IH B N|p q c _ IH Hc Hd]; intros w R.
  - injection R as <-. reflexivity.
  - apply run_snoc_inv in R as (w1 & R & S). rewrite (IH _ R). apply step_inv in S. destruct c; try contradiction.
    + now destruct S as [_ ->].
    + now destruct S as (? & _ & ->).
    + now destruct S as (? & ? & ? & ? & _ & _ & _ & ->).
  - apply run_snoc_inv in R as (w1 & R & S). rewrite run_snoc, (IH _ R). cbn [bind adder_step aw_descs aw_owners].
    apply step_inv in S as (x' & N' & D & _). destruct (owner_there _ _ _ _ _ R B N) as [N2 _].
    rewrite N' in N2. injection N2 as ->. now rewrite D.
  - apply run_snoc_inv in R as (w1 & R & S). rewrite run_snoc, (IH _ R). cbn [bind].
    apply step_inv in S. destruct c as [c|x|e|e f|e a|x a|x]; cbn in Hc; try tauto.
    + destruct S as [D _]. cbn [adder_step aw_descs aw_owners]. now rewrite D.
    + now destruct (Hd e a).
    + destruct S as [D _]. cbn [adder_step aw_descs aw_owners]. now rewrite D.
    + destruct S as [(v & V) ->]. cbn [adder_step aw_descs aw_owners]. unfold alive. now rewrite V.
Qed.

Lemma directly_exists p : forall w, adder_run flag adder_start p = Ok w -> exists q, written_directly p q.
Proof.
  induction p as [|c p IH] using rev_ind; intros w R; [exists []; constructor|].
  apply run_snoc_inv in R as (w1 & R & S). destruct (IH _ R) as [q Q]. apply step_inv in S.
  destruct c as [c|x|e|e f|e a|x a|x].
  - exists (q ++ [ADesc c]). apply wd_other; auto. discriminate.
  - exists q. now apply wd_adder.
  - exists q. now apply wd_adder.
  - exists q. now apply wd_adder.
  - destruct S as (x & N & _). exists (q ++ [ADirect x a]). eapply wd_declare; [eassumption|eapply belong_run; exact R|exact N].
  - exists (q ++ [ADirect x a]). apply wd_other; auto. discriminate.
  - exists (q ++ [AEnd x]). apply wd_other; auto. discriminate.
Qed.
End Facts.
