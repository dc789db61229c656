(** Looking up keys and short names. *)

From Coq Require Import List Ascii String NArith ZArith Bool Arith Lia.
From Verif Require Import Base Errors Spec BaseFacts Values OptDesc SpecLookup LookupFacts.
Import ListNotations.

Lemma foldable_sensitive ds typed : foldable ds typed false false.
Proof. split; [discriminate|]. apply Forall_forall. intros d _. split; discriminate. Qed.

Definition fulls_of ds typed lic sic := filter (fun d => full_b d typed lic sic) ds.
Definition approxs_of ds typed g lic sic :=
  filter (fun d => negb (full_b d typed lic sic) && approx_b d typed g lic) ds.

Lemma find_filter ds typed g lic sic :
  foldable ds typed lic sic ->
  find_nothrow ds typed g lic sic
  = find_result typed (fulls_of ds typed lic sic) (approxs_of ds typed g lic sic).
Proof.
  intros [Ht Hd].
  set (rs := map (fun d => result_of (full_b d typed lic sic) (approx_b d typed g lic)) ds).
  assert (Hr : Forall2 (fun d r => od_match d typed g lic sic = Ok r) ds rs).
  { unfold rs. clear rs. induction Hd as [|d ds H1 H2 IH]; simpl; constructor; auto.
    apply od_match_eq; auto. }
  rewrite (@find_nothrow_eq _ _ _ _ _ _ Hr). unfold rs, fulls_of, approxs_of. f_equal.
  - clear. induction ds as [|d ds IH]; simpl; auto. rewrite IH.
    destruct (full_b d typed lic sic), (approx_b d typed g lic); reflexivity.
  - clear. induction ds as [|d ds IH]; simpl; auto. rewrite IH.
    destruct (full_b d typed lic sic), (approx_b d typed g lic); reflexivity.
Qed.

Lemma filter_sub A (f g : A -> bool) l x :
  (forall y, In y l -> g y = true -> f y = true) -> filter f l = [x] ->
  filter g l = [x] \/ filter g l = [].
Proof.
  revert x; induction l as [|a l IH]; simpl; intros x Himp H; [discriminate|].
  assert (Hempty : filter f l = [] -> filter g l = []).
  { clear -Himp. intros H. induction l as [|b l IH]; simpl in *; auto.
    destruct (f b) eqn:E; [discriminate|].
    destruct (g b) eqn:E2; [rewrite Himp in E; auto; discriminate|]. apply IH; auto.
    intros y [->|Hy] Hg; auto. }
  destruct (f a) eqn:Ef.
  - injection H as -> H. rewrite Hempty by auto. destruct (g x); auto.
  - destruct (g a) eqn:Eg; [rewrite Himp in Ef; auto; discriminate|]. apply IH; auto.
Qed.

Lemma filter_empty_imp A (f g : A -> bool) l :
  (forall y, In y l -> g y = true -> f y = true) -> filter f l = [] -> filter g l = [].
Proof.
  induction l as [|b l IH]; simpl; intros Himp H; auto.
  destruct (f b) eqn:E; [discriminate|].
  destruct (g b) eqn:E2; [rewrite Himp in E; auto; discriminate|]. apply IH; auto.
Qed.

Lemma approx_b_guess d typed g lic : approx_b d typed false lic = true -> approx_b d typed g lic = true.
Proof.
  unfold approx_b, long_approx. rewrite !existsb_exists. intros (n & Hn & H). exists n. split; auto.
  apply andb_true_iff in H. destruct H as [-> H]. simpl in *. rewrite orb_false_r in H. now rewrite H.
Qed.

Lemma fold_idem lic s : fold_str lic (fold_str lic s) = fold_str lic s.
Proof.
  destruct lic; simpl; auto. rewrite map_map. apply map_ext. intros a. apply lower_ascii_idem.
Qed.

(** The lookup of [parse_short_option] finds nothing else than the regular lookup. *)
Lemma short_lookup_weaker ds x g lic sic d :
  foldable ds [c_dash; x] lic sic ->
  (lic = true -> sic = true /\ Forall plain_longs ds) ->
  find_nothrow ds [c_dash; x] g lic sic = Ok (Some d) ->
  find_nothrow ds [c_dash; x] false false sic = Ok (Some d)
  \/ find_nothrow ds [c_dash; x] false false sic = Ok None.
Proof.
  intros Hf Hl H.
  assert (Hf' : foldable ds [c_dash; x] false sic).
  { destruct Hf as [_ Hd]. split; [discriminate|].
    eapply Forall_impl; [|exact Hd]. intros a [_ Ha]. split; [discriminate|auto]. }
  rewrite find_filter in H by auto. rewrite find_filter by auto.
  destruct lic.
  - destruct (Hl eq_refl) as [-> Hp]. rewrite Forall_forall in Hp.
    assert (Ha : forall g' lic', approxs_of ds [c_dash; x] g' lic' true = []).
    { intros g' lic'. unfold approxs_of.
      assert (E : forall l, (forall d, In d l -> plain_longs d) ->
         filter (fun d => negb (full_b d [c_dash; x] lic' true) && approx_b d [c_dash; x] g' lic') l = []).
      { induction l as [|a l IH]; intros Hl'; auto. cbn [filter].
        destruct (plain_no_long [x] g' lic' (Hl' a (or_introl eq_refl))) as [_ E].
        unfold approx_b. rewrite E, andb_false_r. apply IH. intros; apply Hl'; now right. }
      apply E. auto. }
    rewrite Ha in H |- *.
    destruct (fulls_of ds [c_dash; x] true true) as [|f [|]] eqn:Ef; try discriminate.
    injection H as ->. unfold fulls_of in *.
    destruct (filter_sub _ (fun d => full_b d [c_dash; x] true true)
                (fun d => full_b d [c_dash; x] false true) ds d) as [E|E]; auto.
    + intros y Hy. unfold full_b.
      destruct (plain_no_long [x] false false (Hp y Hy)) as [-> _].
      destruct (plain_no_long [x] false true (Hp y Hy)) as [-> _].
      cbn [orb]. rewrite !str_eqb_eq. intros E.
      transitivity (fold_str true (fold_str true (od_short y))); [symmetry; apply fold_idem|].
      rewrite E. reflexivity.
    + rewrite E. auto.
    + rewrite E. auto.
  - unfold fulls_of in *. unfold find_result in H |- *.
    set (F := filter (fun d => full_b d [c_dash; x] false sic) ds) in *.
    destruct F as [|f [|]]; try discriminate; auto.
    unfold approxs_of in *.
    destruct (filter (fun d => negb (full_b d [c_dash; x] false sic) && approx_b d [c_dash; x] g false) ds)
      as [|a [|]] eqn:Ea; try discriminate.
    injection H as ->.
    destruct (filter_sub _
        (fun d => negb (full_b d [c_dash; x] false sic) && approx_b d [c_dash; x] g false)
        (fun d => negb (full_b d [c_dash; x] false sic) && approx_b d [c_dash; x] false false)
        ds d) as [E|E]; auto; try (rewrite E; auto).
    intros y _ Hy. apply andb_true_iff in Hy. destruct Hy as [-> Hy]. simpl. now apply approx_b_guess.
Qed.

(** A full match is found, or the lookup is ambiguous. *)
Lemma find_full ds typed g lic sic d :
  foldable ds typed lic sic -> In d ds -> full d typed lic sic ->
  find_nothrow ds typed g lic sic = Ok (Some d)
  \/ exists alts, find_nothrow ds typed g lic sic = Throw (mk_ambiguous alts).
Proof.
  intros Hf Hd Hfull. rewrite find_filter by auto. apply full_b_spec in Hfull.
  assert (Hin : In d (fulls_of ds typed lic sic)).
  { unfold fulls_of. apply filter_In. auto. }
  unfold find_result. destruct (fulls_of ds typed lic sic) as [|f [|f2 fs]].
  - destruct Hin.
  - destruct Hin as [->|[]]. now left.
  - right. eauto.
Qed.

Lemma find_sound ds typed g lic sic d :
  foldable ds typed lic sic -> find_nothrow ds typed g lic sic = Ok (Some d) ->
  In d ds /\ (full d typed lic sic \/ approximate d typed g lic).
Proof.
  intros Hf H. split; [eapply find_found_In; eauto|]. rewrite find_filter in H by auto.
  unfold find_result in H.
  destruct (fulls_of ds typed lic sic) as [|f [|f2 fs]] eqn:Ef; try discriminate.
  - destruct (approxs_of ds typed g lic sic) as [|a [|]] eqn:Ea; try discriminate.
    injection H as ->. right. apply approx_b_spec.
    assert (Hin : In d (approxs_of ds typed g lic sic)) by (rewrite Ea; now left).
    unfold approxs_of in Hin. apply filter_In in Hin. destruct Hin as [_ Hin].
    apply andb_true_iff in Hin. tauto.
  - injection H as ->. left. apply full_b_spec.
    assert (Hin : In d (fulls_of ds typed lic sic)) by (rewrite Ef; now left).
    unfold fulls_of in Hin. apply filter_In in Hin. tauto.
Qed.

(** Looking up the key of what was found finds it again, unless that is ambiguous. *)
Lemma key_resolves ds typed g lic sic d k :
  foldable ds typed lic sic -> (sic = true -> lic = true) ->
  find_nothrow ds typed g lic sic = Ok (Some d) -> is_key d typed k -> k <> [] ->
  find_nothrow ds k g lic sic = Ok (Some d)
  \/ exists alts, find_nothrow ds k g lic sic = Throw (mk_ambiguous alts).
Proof.
  intros Hf Hs H Hk Hne. destruct (find_sound _ _ _ _ _ _ Hf H) as [Hin Hm].
  assert (Hfd : foldable_option d lic sic).
  { destruct Hf as [_ Hf]. rewrite Forall_forall in Hf. auto. }
  destruct Hk as [(f & r & El & Hn & ->)|[(f & r & El & Hn & ->)|(El & ->)]].
  - apply find_full; auto.
    + destruct Hf as [_ Hf]. split; auto. intros E. destruct Hfd as [Hfd _].
      specialize (Hfd E). rewrite El in Hfd. now inversion Hfd.
    + left. exists f. rewrite El. split; [now left|]. split; auto. now apply same_name_eq.
  - now left.
  - assert (Hshort : same_name sic lic (od_short d) typed).
    { destruct Hm as [[(l & Hl & _)|Hm]|[(l & p & t & Hl & _)|(_ & l & u & v & Hl & _)]]; auto;
        rewrite El in Hl; destruct Hl. }
    apply same_name_eq in Hshort.
    assert (E : fold_str sic (od_short d) = fold_str lic (od_short d)).
    { destruct sic; [rewrite (Hs eq_refl); reflexivity|]. destruct lic; [|reflexivity].
      change (fold_str false (od_short d)) with (od_short d) in Hshort |- *.
      now rewrite Hshort, fold_idem. }
    apply find_full; auto.
    + destruct Hf as [Ht Hf]. split; auto. intros El'. destruct Hfd as [_ Hfd].
      destruct sic; auto. change (fold_str false (od_short d)) with (od_short d) in Hshort.
      rewrite Hshort, El'. specialize (Ht El'). unfold fold_str. clear -Ht.
      induction Ht as [|a s Ha _ IH]; simpl; constructor; auto. apply lower_ascii_lt128; auto.
    + right. apply same_name_eq. auto.
Qed.
