(** Positional options: numbering, naming and the description. *)

From Coq Require Import List Ascii String NArith ZArith Bool Arith Lia.
From Verif Require Import Base Errors Spec BaseFacts Values OptDesc SpecLookup LookupFacts
  KeyFacts Positional Cmdline SpecCmdline CmdlineFacts RunFacts ParseFacts CongruenceFacts.
Import ListNotations.

(** ** Numbering *)

Lemma number_positions k rs :
  (0 <= k)%Z -> Forall pre_opt rs ->
  forall i o, nth_error (positionals (number_positionals k rs)) i = Some o -> po_pos o = (k + Z.of_nat i)%Z.
Proof.
  intros Hk H. revert k Hk; induction H as [|a rs Ha _ IH]; intros k Hk i o Hi.
  - destruct i; discriminate.
  - cbn [number_positionals] in Hi. destruct (po_key a) eqn:E; cbn [is_empty] in Hi;
      unfold positionals in Hi; cbn [filter po_pos] in Hi.
    + destruct (Z.eqb_spec k (-1)); [lia|]. cbn [negb] in Hi. destruct i as [|i].
      * injection Hi as <-. cbn. lia.
      * cbn [nth_error] in Hi. apply IH in Hi; lia.
    + destruct Ha as [Ha|Ha]; [congruence|]. rewrite Ha in Hi. cbn in Hi. now apply IH in Hi.
Qed.

Definition same_pos (a b : popt) : Prop := po_pos a = po_pos b.

Lemma positionals_same a b :
  Forall2 same_pos a b -> Forall2 same_pos (positionals a) (positionals b).
Proof.
  unfold positionals. induction 1 as [|x y l l' H Hl IH]; [constructor|]. cbn [filter].
  unfold same_pos in H. rewrite <- H. destruct (negb _); auto.
Qed.

Lemma name_same_pos p k rs rs' : name_positionals p k rs = Ok rs' -> Forall2 same_pos rs rs'.
Proof.
  revert k rs'; induction rs as [|o rs IH]; intros k rs' H; cbn [name_positionals] in H.
  - injection H as <-. constructor.
  - destruct (Z.eqb_spec (po_pos o) (-1)) as [E|E].
    + apply bind_Ok in H. destruct H as (r & Hr & H). injection H as <-. constructor; eauto. reflexivity.
    + destruct (Z.leb _ _); [discriminate|]. apply bind_Ok in H. destruct H as (n & Hn & H).
      apply bind_Ok in H. destruct H as (r & Hr & H). injection H as <-. constructor; eauto. reflexivity.
Qed.

Lemma same_pos_nth a b i o :
  Forall2 same_pos a b -> nth_error b i = Some o -> exists o', nth_error a i = Some o' /\ po_pos o' = po_pos o.
Proof.
  intros H; revert i; induction H as [|x y l l' Hxy _ IH]; intros [|i] Hi; try discriminate.
  - injection Hi as <-. exists x. auto.
  - apply IH in Hi. auto.
Qed.

Lemma numbered_lemma c args res :
  cl_style_parser c = None -> parse c args = Ok res ->
  forall i o, nth_error (positionals res) i = Some o -> po_pos o = Z.of_nat i.
Proof.
  intros Hc H i o Hi. apply run_ok in H. destruct H as (r1 & r2 & r4 & Hm & Hmg & Hp & ->).
  assert (Hpre : Forall pre_opt r2).
  { eapply merged_pre; eauto. eapply steps_pre, main_loop_steps; eauto. }
  assert (H4 : Forall2 same_pos (number_positionals 0 r2) (map (set_case_flag c) r4)).
  { assert (H5 : Forall2 same_pos (number_positionals 0 r2) r4).
    { destruct (cl_positional c); [eapply name_same_pos; eauto|]. subst r4.
      clear. induction (number_positionals 0 r2); constructor; auto. reflexivity. }
    clear -H5. induction H5; constructor; auto. }
  apply positionals_same in H4. destruct (same_pos_nth _ _ _ _ H4 Hi) as (o' & Ho' & E).
  apply number_positions in Ho'; auto; lia.
Qed.

(** ** Naming *)

(** What numbering produces: positions counted from [k]. *)
Fixpoint counted (k : Z) (rs : list popt) : Prop :=
  match rs with
  | [] => True
  | o :: rs' => if Z.eqb (po_pos o) (-1) then counted k rs' else po_pos o = k /\ counted (k + 1) rs'
  end.

Lemma number_counted k rs :
  (0 <= k)%Z -> Forall pre_opt rs -> counted k (number_positionals k rs).
Proof.
  intros Hk H. revert k Hk; induction H as [|a rs Ha _ IH]; intros k Hk; [exact I|].
  cbn [number_positionals]. destruct (po_key a) eqn:E; cbn [is_empty counted po_pos].
  - destruct (Z.eqb_spec k (-1)); [lia|]. split; auto. apply IH. lia.
  - destruct Ha as [Ha|Ha]; [congruence|]. rewrite Ha. cbn. auto.
Qed.

Definition named_pos (p : positional) (a b : popt) : Prop :=
  (po_pos a = (-1)%Z -> b = a)
  /\ (po_pos a <> (-1)%Z -> exists n, name_for_position p (po_pos a) = Ok n /\ b = with_key n a).

Lemma name_all p k rs :
  (0 <= k)%Z -> counted k rs ->
  ((k + count_positionals rs <= Z.max k (max_total_count p))%Z ->
   exists rs', name_positionals p k rs = Ok rs' /\ Forall2 (named_pos p) rs rs')
  /\ ((k + count_positionals rs > Z.max k (max_total_count p))%Z ->
      name_positionals p k rs = Throw (plain_exn too_many_positional_options_error)).
Proof.
  unfold count_positionals, positionals.
  revert k; induction rs as [|o rs IH]; intros k Hk Hc; cbn [counted name_positionals filter] in *.
  - split; intros H; [exists []; split; constructor|cbn in H; lia].
  - destruct (Z.eqb_spec (po_pos o) (-1)) as [E|E]; cbn [negb].
    + destruct (IH k Hk Hc) as [IH1 IH2]. split; intros H.
      * destruct (IH1 H) as (rs' & -> & Hf). exists (o :: rs'). split; [reflexivity|]. constructor; auto.
        split; auto. intros; contradiction.
      * now rewrite IH2.
    + destruct Hc as [Ek Hc]. cbn [List.length]. rewrite Nat2Z.inj_succ.
      destruct (IH (k + 1)%Z ltac:(lia) Hc) as [IH1 IH2].
      destruct (Z.leb_spec (max_total_count p) k) as [Hle|Hgt].
      * split; intros H; [exfalso; lia|reflexivity].
      * assert (Hnm : exists n, name_for_position p k = Ok n).
        { unfold name_for_position. destruct (Z.ltb_spec k (max_total_count p)); [|lia].
          destruct (nth_error _ _); eauto. }
        destruct Hnm as [n Hnm]. rewrite Hnm. cbn [bind]. split; intros H.
        -- destruct IH1 as (rs' & -> & Hf); [lia|]. cbn [bind]. eexists. split; [reflexivity|].
           constructor; auto. split; [intros; contradiction|]. intros _. exists n. split; [now rewrite Ek|reflexivity].
        -- rewrite IH2 by lia. reflexivity.
Qed.

Section Naming.
  Variables (c : cmdline) (p : positional).
  Let c0 := with_positional c None.
  Let c1 := with_positional c (Some p).

  Lemma np_lookup n : lookup c0 n = lookup c1 n.
  Proof. reflexivity. Qed.

  Lemma np_main fuel args : main_loop fuel c0 args = main_loop fuel c1 args.
  Proof.
    assert (Hs : forall a, main_step c0 a = main_step c1 a).
    { intros a. apply main_step_cong; try reflexivity. apply adj_parsers; try reflexivity.
      intros k _ _. reflexivity. }
    revert args; induction fuel as [|fuel IH]; intros args; [reflexivity|].
    destruct args as [|t args]; [reflexivity|]. cbn [main_loop]. rewrite Hs.
    destruct (main_step c1 (t :: args)); try reflexivity. cbn [bind]. now rewrite IH.
  Qed.

  Lemma np_merge fuel rs : merge_pass fuel c0 rs = merge_pass fuel c1 rs.
  Proof. apply merge_cong; reflexivity. Qed.

  Lemma naming_lemma args :
    cl_style_parser c = None ->
    (forall r, parse c0 args = Ok r -> (count_positionals r <= max_total_count p)%Z ->
       exists r', parse c1 args = Ok r' /\ Forall2 (renamed p) r r')
    /\ (forall r, parse c0 args = Ok r -> (count_positionals r > max_total_count p)%Z ->
         parse c1 args = Throw (plain_exn too_many_positional_options_error))
    /\ ((forall r, parse c0 args <> Ok r) -> parse c1 args = parse c0 args).
  Proof.
    intros Hc.
    assert (Hmt : (0 <= max_total_count p)%Z).
    { unfold max_total_count. destruct (is_empty _); [lia|unfold UINT_MAX; lia]. }
    unfold parse, run. rewrite <- np_main.
    destruct (main_loop (List.length args) c0 args) as [r1| | |] eqn:Em;
      try (repeat split; intros; (discriminate || reflexivity)).
    cbn [bind]. rewrite <- np_merge.
    destruct (merge_pass (List.length r1) c0 r1) as [r2| | |] eqn:Eg;
      try (repeat split; intros; (discriminate || reflexivity)).
    cbn [bind]. change (cl_positional c0) with (@None positional).
    change (cl_positional c1) with (Some p). cbv beta iota zeta. cbn [bind].
    assert (Hpre : Forall pre_opt r2).
    { eapply merged_pre; [eapply merge_ok; eauto|].
      eapply steps_pre. apply (main_loop_steps c0 (List.length args) args); [exact Hc|exact Em]. }
    pose proof (number_counted 0 r2 (Z.le_refl 0) Hpre) as Hcnt.
    destruct (name_all p 0 _ (Z.le_refl 0) Hcnt) as [H1 H2].
    repeat split.
    - intros r E Hle. injection E as <-. rewrite case_count in Hle.
      destruct H1 as (r4 & -> & Hf); [lia|]. cbn [bind]. eexists. split; [reflexivity|].
      clear -Hf. induction Hf as [|a b l l' Hab _ IH]; cbn [map]; constructor; auto.
      destruct Hab as [Ha Hb]. unfold renamed, set_case_flag. cbn.
      destruct (Z.eq_dec (po_pos a) (-1)) as [E|E].
      + rewrite (Ha E). repeat split; auto. intros; contradiction.
      + destruct (Hb E) as (n & Hn & ->). cbn. repeat split; auto. intros; contradiction.
    - intros r E Hgt. injection E as <-. rewrite case_count in Hgt. rewrite H2 by lia. reflexivity.
    - intros H. exfalso. eapply H. reflexivity.
  Qed.
End Naming.

(** ** The description *)

Lemma expand_length blocks :
  List.length (expand blocks) = fold_right (fun b n => snd b + n) 0 blocks.
Proof.
  induction blocks as [|[n k] bs IH]; [reflexivity|]. cbn [expand fold_right snd].
  now rewrite app_length, repeat_length, IH.
Qed.

Lemma add_nonneg p n k :
  positional_add p n (Z.of_nat k) = Ok (mk_pos (pos_names p ++ repeat n k) (pos_trailing p)).
Proof.
  unfold positional_add. destruct (Z.eqb_spec (Z.of_nat k) (-1)); [lia|].
  destruct (Z.ltb_spec (Z.of_nat (List.length (pos_names p)) + Z.of_nat k) 0); [lia|].
  replace (Z.to_nat (Z.of_nat (List.length (pos_names p)) + Z.of_nat k))
    with (List.length (pos_names p) + k) by lia.
  rewrite firstn_all2 by lia.
  replace (List.length (pos_names p) + k - List.length (pos_names p)) with k by lia. reflexivity.
Qed.

Lemma add_blocks p blocks tail :
  add_all p (map (fun b => (fst b, Z.of_nat (snd b))) blocks ++ tail)
  = add_all (mk_pos (pos_names p ++ expand blocks) (pos_trailing p)) tail.
Proof.
  revert p; induction blocks as [|[n k] bs IH]; intros p.
  - cbn [map app expand]. rewrite app_nil_r. now destruct p.
  - cbn [map app add_all fst snd]. rewrite add_nonneg. cbn [bind]. rewrite IH. cbn [pos_names pos_trailing expand].
    now rewrite app_assoc.
Qed.

Lemma blocks_lemma blocks :
  exists p, add_all positional_empty (map (fun b => (fst b, Z.of_nat (snd b))) blocks) = Ok p
    /\ max_total_count p = Z.of_nat (List.length (expand blocks))
    /\ (forall k n, nth_error (expand blocks) k = Some n -> name_for_position p (Z.of_nat k) = Ok n)
    /\ (forall k, (Z.of_nat k >= max_total_count p)%Z -> name_for_position p (Z.of_nat k) = Undef UB_assert).
Proof.
  pose proof (add_blocks positional_empty blocks []) as H. rewrite app_nil_r in H. cbn [add_all] in H.
  eexists. split; [exact H|]. cbn [pos_names pos_trailing positional_empty app].
  unfold max_total_count, name_for_position. cbn [pos_names pos_trailing is_empty].
  split; [reflexivity|]. split.
  - intros k n Hk.
    assert (Hlt : k < List.length (expand blocks)) by (apply nth_error_Some; congruence).
    unfold max_total_count. cbn [pos_names pos_trailing is_empty].
    destruct (Z.ltb_spec (Z.of_nat k) (Z.of_nat (List.length (expand blocks)))); [|lia].
    now rewrite Nat2Z.id, Hk.
  - intros k Hk. unfold max_total_count. cbn [pos_names pos_trailing is_empty].
    destruct (Z.ltb_spec (Z.of_nat k) (Z.of_nat (List.length (expand blocks)))); [lia|reflexivity].
Qed.

Lemma expand_app a b : expand (a ++ b) = expand a ++ expand b.
Proof. induction a as [|[n k] a IH]; [reflexivity|]. cbn. now rewrite IH, app_assoc. Qed.

Lemma trailing_lemma blocks1 blocks2 t :
  t <> [] ->
  exists p, add_all positional_empty
      (map (fun b => (fst b, Z.of_nat (snd b))) blocks1 ++ (t, (-1)%Z)
       :: map (fun b => (fst b, Z.of_nat (snd b))) blocks2) = Ok p
    /\ max_total_count p = UINT_MAX
    /\ forall k, (Z.of_nat k < UINT_MAX)%Z ->
         name_for_position p (Z.of_nat k) = Ok (nth k (expand (blocks1 ++ blocks2)) t).
Proof.
  intros Ht. rewrite add_blocks. cbn. destruct t as [|x t]; [contradiction|].
  rewrite <- (app_nil_r (map _ blocks2)), add_blocks. cbn [pos_names pos_trailing add_all].
  rewrite <- expand_app.
  eexists. split; [reflexivity|]. split; [reflexivity|]. intros k Hk.
  unfold name_for_position, max_total_count. cbn [pos_names pos_trailing is_empty].
  destruct (Z.ltb_spec (Z.of_nat k) UINT_MAX); [|lia]. rewrite Nat2Z.id.
  destruct (nth_error (expand (blocks1 ++ blocks2)) k) eqn:E.
  - now rewrite (nth_error_nth _ _ _ E).
  - apply nth_error_None in E. now rewrite nth_overflow.
Qed.

Lemma twice_trailing_lemma p n : pos_trailing p <> [] -> positional_add p n (-1) = Undef UB_assert.
Proof. unfold positional_add. cbn. now destruct (pos_trailing p). Qed.

Lemma negative_lemma p n k :
  1 < k -> k <= List.length (pos_names p) ->
  positional_add p n (- Z.of_nat k)
  = Ok (mk_pos (firstn (List.length (pos_names p) - k) (pos_names p)) (pos_trailing p)).
Proof.
  intros Hk Hl. unfold positional_add. destruct (Z.eqb_spec (- Z.of_nat k) (-1)); [lia|].
  destruct (Z.ltb_spec (Z.of_nat (List.length (pos_names p)) + - Z.of_nat k) 0); [lia|].
  replace (Z.to_nat (Z.of_nat (List.length (pos_names p)) + - Z.of_nat k))
    with (List.length (pos_names p) - k) by lia.
  replace (List.length (pos_names p) - k - List.length (pos_names p)) with 0 by lia.
  cbn. now rewrite app_nil_r.
Qed.
