(** What the options in a successful parse look like. *)

From Coq Require Import List Ascii String NArith ZArith Bool Arith Lia.
From Verif Require Import Base Errors Spec BaseFacts Values OptDesc SpecLookup LookupFacts
  KeyFacts Positional Cmdline SpecCmdline CmdlineFacts RunFacts ParseFacts.
Import ListNotations.

Lemma key_nonempty d typed : has_name d -> typed <> [] -> od_key d typed <> [].
Proof.
  unfold has_name. intros H Ht. pose proof (is_key_od_key d typed) as Hk.
  destruct Hk as [(f & r & El & _ & ->)|[(f & r & El & _ & ->)|(El & ->)]]; rewrite El in H; auto.
Qed.

Lemma sensible_ok ds : Forall sensible ds -> desc_ok ds.
Proof. intros H. exact H. Qed.

(** ** The options of the first pass *)

Definition born_pos (args : list str) (o : popt) : Prop :=
  po_key o = [] /\ po_unreg o = false /\ (po_pos o = (-1)%Z \/ po_pos o = INT_MAX)
  /\ exists tok v, In tok args /\ po_value o = [v]
     /\ (v = tok /\ po_orig o = [tok]
         \/ v <> [] /\ po_orig o = [dashdash ++ [c_eq] ++ v]
            /\ (tok = dashdash ++ [c_eq] ++ v \/ tok = [c_dash; c_eq] ++ v \/ tok = [c_slash; c_eq] ++ v)).

Definition born_unreg (c : cmdline) (args : list str) (o : popt) : Prop :=
  po_key o <> [] /\ unregistered c args o.

Definition born_reg (c : cmdline) (args : list str) (o : popt) : Prop :=
  po_key o <> [] /\ po_pos o = (-1)%Z /\ po_unreg o = false
  /\ exists tok typed d, In tok args /\ names c tok typed /\ lookup c typed = Ok (Some d)
     /\ typed <> [] /\ po_key o = od_key d typed
     /\ (vs_min (od_sem d) <= Z.of_nat (List.length (po_value o))
         <= Z.max (vs_min (od_sem d)) (vs_max (od_sem d)))%Z.

Definition born (c : cmdline) (args : list str) (o : popt) : Prop :=
  born_pos args o \/ born_unreg c args o \/ born_reg c args o.

Lemma born_mono c args args' o :
  (forall x, In x args -> In x args') -> born c args o -> born c args' o.
Proof.
  intros H [(H1 & H2 & H3 & tok & v & Hin & H4)|[(H1 & H2 & H3 & H4 & H5 & tok & Hin & H6)
    |(H1 & H2 & H3 & tok & typed & d & Hin & H4)]].
  - left. repeat (split; auto). exists tok, v. auto.
  - right. left. repeat (split; auto). exists tok. auto.
  - right. right. repeat (split; auto). exists tok, typed, d. auto.
Qed.

(** A raw option as a style parser returns it: named by the token, or "--=v". *)
Definition raw_ok (c : cmdline) (tok : str) (o : popt) : Prop :=
  po_pos o = (-1)%Z /\ po_unreg o = false /\ (List.length (po_value o) <= 1)
  /\ (po_key o = [] /\ (exists v, v <> [] /\ po_value o = [v] /\ po_orig o = [dashdash ++ [c_eq] ++ v]
        /\ (tok = dashdash ++ [c_eq] ++ v \/ tok = [c_dash; c_eq] ++ v \/ tok = [c_slash; c_eq] ++ v))
      \/ po_key o <> [] /\ names c tok (po_key o)).

Lemma opt_value_len v : List.length (opt_value v) <= 1.
Proof. unfold opt_value. destruct (is_empty v); simpl; lia. Qed.

Lemma reads_raw c tok os : reads c tok os -> Forall (raw_ok c tok) os.
Proof.
  intros H. destruct H.
  - constructor; [|constructor]. unfold raw_ok, raw; cbn. repeat (split; auto). right. split; auto.
    now apply nm_long.
  - constructor; [|constructor]. unfold raw_ok, raw; cbn. repeat (split; auto).
    destruct name as [|a name].
    + left. split; auto. exists v. repeat (split; auto). now rewrite H0. 
    + right. split; [discriminate|]. apply (nm_long_value c tok (a :: name) v); auto. discriminate.
  - apply Forall_app. split.
    + apply Forall_forall. intros o Ho. apply in_map_iff in Ho. destruct Ho as (a & <- & Ha).
      unfold raw_ok, raw; cbn. repeat (split; auto). right. split; [discriminate|].
      apply in_split in Ha. destruct Ha as (f1 & f2 & ->).
      apply (nm_sticky c tok f1 a (f2 ++ x :: adj)); auto.
      * apply H3. now destruct f1.
      * now rewrite H1, <- app_assoc.
      * now destruct f1.
    + constructor; [|constructor]. unfold raw_ok, raw; cbn. repeat (split; auto using opt_value_len).
      right. split; [discriminate|]. destruct flags as [|a fl].
      * apply (nm_short c tok x adj); auto.
      * apply (nm_sticky c tok (a :: fl) x adj); auto. apply H3. discriminate.
  - constructor; [|constructor]. unfold raw_ok, raw; cbn. repeat (split; auto using opt_value_len).
    right. split; [discriminate|]. now apply (nm_slash c tok x adj).
  - constructor; [|constructor]. unfold raw_ok, raw; cbn. repeat (split; auto). right. split; auto.
    apply (nm_disguised c tok b); auto. tauto.
  - constructor; [|constructor]. unfold raw_ok, raw; cbn. repeat (split; auto).
    destruct name as [|a name].
    + left. split; auto. exists v. repeat (split; auto). rewrite H0. destruct H3 as [[-> _]|[-> _]]; auto.
    + right. split; [discriminate|]. apply (nm_disguised_value c tok b (a :: name) v); auto;
        [tauto|discriminate].
  - constructor; [|constructor]. unfold raw_ok, raw; cbn. repeat (split; auto using opt_value_len).
    right. split; auto. now apply (nm_additional c tok f name v).
Qed.

Lemma finish_born c ps tok o other o' other' :
  Forall has_name (cl_desc c) -> Forall sensible (cl_desc c) ->
  raw_ok c tok o -> finish_option c ps o other = Ok (o', other') -> born c [tok] o'.
Proof.
  intros Hn Hs (H1 & H2 & H3 & H4) H. apply finish_option_ok in H.
  destruct H as [(Hk & -> & ->)|[(Hk & Hl & Hu & -> & ->)|(Hk & d & ts & Hl & -> & -> & Hm & Hlen)]].
  - destruct H4 as [(_ & v & Hv & Hval & Ho & Ht)|[Hne _]]; [|contradiction].
    left. repeat (split; auto). exists tok, v. split; [now left|]. auto.
  - destruct H4 as [(Hk' & _)|[_ Hnm]]; [contradiction|]. right. left. split; [auto|].
    repeat (split; auto). exists tok. split; [now left|auto].
  - destruct H4 as [(Hk' & _)|[_ Hnm]]; [contradiction|]. right. right.
    rewrite Forall_forall in Hn, Hs. pose proof (lookup_In _ _ _ Hl) as Hin.
    specialize (Hn _ Hin). destruct (Hs _ Hin) as [Hmin Hmax].
    unfold born_reg. cbn. split; [now apply key_nonempty|]. split; auto. split; auto.
    exists tok, (po_key o), d. split; [now left|]. repeat (split; auto).
    + rewrite app_length, Nat2Z.inj_add, Hlen. lia.
    + rewrite app_length, Nat2Z.inj_add, Hlen. destruct (Z.eq_dec (vs_max (od_sem d)) 0) as [E|E].
      * rewrite (Hm E). cbn. lia.
      * lia.
Qed.

Lemma finish_all_born c tok ps os args opts args' :
  Forall has_name (cl_desc c) -> Forall sensible (cl_desc c) ->
  Forall (raw_ok c tok) os -> finish_all c ps os args = Ok (opts, args') ->
  Forall (born c [tok]) opts /\ (forall x, In x args' -> In x args).
Proof.
  intros Hn Hs Hr. destruct os as [|o0 os0] using rev_ind.
  - cbn. intros H. injection H as <- <-. auto.
  - clear IHos0. apply Forall_app in Hr. destruct Hr as [Hr Hr0]. inversion Hr0; subst.
    intros H. apply finish_all_snoc_ok in H. destruct H as (fs & f & -> & Hfs & Hf). split.
    + apply Forall_app. split.
      * clear Hf. induction Hfs as [|x y l l' Hxy Hll IH]; constructor.
        -- inversion Hr; subst. eapply finish_born; eauto.
        -- apply IH. now inversion Hr.
      * constructor; [|constructor]. eapply finish_born; eauto.
    + apply finish_option_ok in Hf.
      destruct Hf as [(_ & _ & ->)|[(_ & _ & _ & _ & ->)|(_ & d & ts & _ & -> & _)]]; auto.
      intros x Hx. apply in_or_app. now right.
Qed.

Lemma step_born c tok rest opts args' :
  Forall has_name (cl_desc c) -> Forall sensible (cl_desc c) ->
  step_result c tok rest opts args' ->
  Forall (born c (tok :: rest)) opts /\ (forall x, In x args' -> In x rest).
Proof.
  intros Hn Hs [(os & Hr & Hf)|[(-> & -> & ->)|(-> & ->)]].
  - apply reads_raw in Hr. destruct (finish_all_born _ _ _ _ _ _ _ Hn Hs Hr Hf) as [Hb Hin].
    split; auto. eapply Forall_impl; [|exact Hb]. intros o. apply born_mono.
    intros x [<-|[]]. now left.
  - split; [|intros x []]. apply Forall_forall. intros o Ho. apply in_map_iff in Ho.
    destruct Ho as (t & <- & Ht). left. unfold born_pos, term_opt; cbn. repeat (split; auto).
    exists t, t. split; [now right|]. auto.
  - split; auto. constructor; [|constructor]. left. unfold born_pos, pos_opt, raw; cbn.
    repeat (split; auto). exists tok, tok. split; [now left|]. auto.
Qed.

Lemma steps_born c args opts :
  Forall has_name (cl_desc c) -> Forall sensible (cl_desc c) ->
  steps c args opts -> Forall (born c args) opts.
Proof.
  intros Hn Hs H. induction H as [|tok rest opts args' more Hstep H IH]; [constructor|].
  destruct (step_born _ _ _ _ _ Hn Hs Hstep) as [Hb Hin]. apply Forall_app. split; auto.
  eapply Forall_impl; [|exact IH]. intros o. apply born_mono. intros x Hx. right. auto.
Qed.

(** At most one positional option per token. *)
Lemma count_empty_app a b : count_empty (a ++ b) = count_empty a + count_empty b.
Proof. unfold count_empty. now rewrite filter_app, app_length. Qed.

Lemma count_empty_zero os : Forall (fun o => po_key o <> []) os -> count_empty os = 0.
Proof.
  unfold count_empty. induction 1 as [|o os Ho _ IH]; [reflexivity|]. cbn [filter].
  destruct (po_key o); [contradiction|]. exact IH.
Qed.

Lemma finish_key c ps o other o' other' :
  Forall has_name (cl_desc c) ->
  finish_option c ps o other = Ok (o', other') -> po_key o <> [] -> po_key o' <> [].
Proof.
  intros Hn H Hk. apply finish_option_ok in H.
  destruct H as [(E & _)|[(_ & _ & _ & -> & _)|(_ & d & ts & Hl & _ & -> & _)]]; auto.
  cbn. apply key_nonempty; auto. rewrite Forall_forall in Hn. apply Hn. eapply lookup_In; eauto.
Qed.

Lemma step_count c tok rest opts args' :
  Forall has_name (cl_desc c) ->
  step_result c tok rest opts args' -> count_empty opts + List.length args' <= S (List.length rest).
Proof.
  intros Hn [(os & Hr & Hf)|[(-> & -> & ->)|(-> & ->)]].
  - apply reads_last in Hr. destruct Hr as (fl & o & -> & _).
    apply finish_all_snoc_ok in Hf. destruct Hf as (fs & f & -> & Hfs & Hf).
    pose proof (finish_option_length _ _ _ _ _ _ Hf). rewrite count_empty_app.
    rewrite (count_empty_zero fs).
    + assert (count_empty [f] <= 1) by (unfold count_empty; cbn; destruct (is_empty _); cbn; lia). lia.
    + clear -Hn Hfs. remember (map (fun a => raw [c_dash; a] [] []) fl) as l eqn:El. revert fl El.
      induction Hfs as [|x y l l' Hxy Hll IH]; intros fl El; constructor.
      * destruct fl; try discriminate. injection El as -> ->. eapply finish_key; eauto. discriminate.
      * destruct fl; try discriminate. injection El as -> ->. eapply IH; eauto.
  - unfold count_empty.
    assert (E : forall l, List.length (filter (fun o => is_empty (po_key o)) (map term_opt l)) = List.length l).
    { induction l; cbn; auto. }
    rewrite E. simpl. lia.
  - cbn. lia.
Qed.

Lemma steps_count c args opts :
  Forall has_name (cl_desc c) -> steps c args opts -> count_empty opts <= List.length args.
Proof.
  intros Hn H. induction H as [|tok rest opts args' more Hstep H IH]; [apply Nat.le_refl|].
  apply step_count in Hstep; auto. rewrite count_empty_app. simpl. lia.
Qed.

(** ** The later passes *)

Lemma case_fine_foldable c typed d :
  case_fine c -> lookup c typed = Ok (Some d) ->
  foldable (cl_desc c) typed (has (cl_style c) long_case_insensitive)
    (has (cl_style c) short_case_insensitive)
  /\ (has (cl_style c) short_case_insensitive = true -> has (cl_style c) long_case_insensitive = true).
Proof.
  intros [[E1 E2]|(E1 & Hd)] Hl.
  - rewrite E1, E2. split; [apply foldable_sensitive|discriminate].
  - split; auto. split.
    + intros _. destruct (ascii7_dec typed) as [Ha|Ha]; auto. unfold lookup in Hl. rewrite E1, ub_typed in Hl; auto; [discriminate|].
      intros E. rewrite E in Hl. discriminate.
    + eapply Forall_impl; [|exact Hd]. intros x [H1 H2]. split; auto.
Qed.

Lemma absorb_length o taken :
  Forall plain_pos taken -> List.length (po_value (absorb o taken)) = List.length (po_value o) + List.length taken.
Proof.
  intros H. cbn. rewrite app_length. f_equal.
  induction H as [|p l (_ & _ & v & t & Hv & _) _ IH]; [reflexivity|]. cbn. now rewrite Hv, app_length, IH.
Qed.

Definition grown (c : cmdline) (args : list str) (o : popt) : Prop :=
  born_pos args o \/ (po_key o <> [] /\ unregistered c args o) \/ (po_key o <> [] /\ registered c args o).

Lemma merged_grown c args a b :
  case_fine c -> (Z.of_nat (count_empty a) <= INT_MAX)%Z ->
  merged c a b -> Forall (born c args) a -> Forall (grown c args) b.
Proof.
  intros Hcase Hcount H. induction H as [|o os rs Hk H IH|o taken os rs Hk Htaken Hroom [xd Hxd] H IH];
    intros Hb; [constructor| |].
  - inversion Hb as [|? ? Ho Hos]; subst. constructor.
    + destruct Ho as [Ho|[[Ho _]|[Ho _]]]; [now left|contradiction|contradiction].
    + apply IH; auto. unfold count_empty in *. cbn in Hcount. destruct (is_empty (po_key o)); cbn in Hcount; lia.
  - inversion Hb as [|? ? Ho Hos]; subst. apply Forall_app in Hos. destruct Hos as [Hbt Hbo].
    assert (Hct : count_empty taken = List.length taken).
    { clear -Htaken. unfold count_empty. induction Htaken as [|p l (Hp & _) _ IH]; [reflexivity|].
      cbn. rewrite Hp. cbn. now rewrite IH. }
    assert (Hcc : (Z.of_nat (List.length taken) + Z.of_nat (count_empty os) <= INT_MAX)%Z).
    { change (o :: taken ++ os) with ([o] ++ taken ++ os) in Hcount.
      rewrite !count_empty_app, Hct in Hcount. lia. }
    constructor; [|apply IH; auto; lia].
    destruct Ho as [(Ho & _)|[(_ & H1 & H2 & H3 & H4 & tok & Hin & Hnm)
      |(_ & H1 & H2 & tok & typed & d & Hin & Hnm & Hl & Hty & Hkey & Hcnt)]]; [contradiction| |].
    + right. left. split; auto.
      assert (E : taken = []).
      { destruct Hroom as [Hr|(d & Hd & _)]; [now destruct taken|congruence]. }
      subst taken. rewrite absorb_nil. repeat (split; auto). exists tok. auto.
    + right. right. split; auto. split; auto. split; auto.
      destruct (case_fine_foldable _ _ _ Hcase Hl) as [Hfold Hsl].
      assert (Hkd : lookup c (po_key o) = Ok (Some d)).
      { pose proof (key_resolves (cl_desc c) typed (has (cl_style c) allow_guessing) _ _ d (po_key o)
          Hfold Hsl Hl) as Hkr.
        rewrite Hkey in Hkr. specialize (Hkr (is_key_od_key d typed)). rewrite <- Hkey in Hkr.
        specialize (Hkr Hk). destruct Hkr as [Hkr|[alts Hkr]]; [exact Hkr|].
        unfold lookup in Hxd. congruence. }
      exists tok, typed, d. repeat (split; auto).
      * cbn [absorb po_key]. rewrite Hkey. apply is_key_od_key.
      * rewrite absorb_length by auto. lia.
      * rewrite absorb_length by auto. destruct Hroom as [Hr|(d' & Hd' & Hmm & Hr)]; [lia|].
        rewrite Hkd in Hd'. injection Hd' as <-.
        destruct (Z_le_gt_dec (vs_max (od_sem d) - Z.of_nat (List.length (po_value o))) INT_MAX) as [Hle|Hgt].
        -- specialize (Hr Hle). lia.
        -- lia.
Qed.

Definition classified (c : cmdline) (args : list str) (o : popt) : Prop :=
  registered c args o \/ unregistered c args o \/ positional_option args o.

Lemma number_classified c args k rs :
  (0 <= k)%Z -> Forall (grown c args) rs -> Forall (classified c args) (number_positionals k rs).
Proof.
  intros Hk H. revert k Hk; induction H as [|o rs Ho _ IH]; intros k Hk; [constructor|].
  cbn [number_positionals]. destruct (po_key o) eqn:E; cbn [is_empty].
  - constructor; [|apply IH; lia]. right. right.
    destruct Ho as [(_ & H2 & _ & H3)|[(Hne & _)|(Hne & _)]]; [|contradiction|contradiction].
    unfold positional_option. cbn. auto.
  - constructor; [|apply IH; lia].
    destruct Ho as [(Hne & _)|[(_ & Ho)|(_ & Ho)]]; [congruence|right; now left|now left].
Qed.

Lemma name_classified c args p k rs rs' :
  name_positionals p k rs = Ok rs' -> Forall (classified c args) rs -> Forall (classified c args) rs'.
Proof.
  revert k rs'; induction rs as [|o rs IH]; intros k rs' H Hf; cbn [name_positionals] in H.
  - injection H as <-. constructor.
  - inversion Hf as [|? ? Ho Hrs]; subst. destruct (Z.eqb_spec (po_pos o) (-1)) as [E|E].
    + apply bind_Ok in H. destruct H as (r & Hr & H). injection H as <-. constructor; eauto.
    + destruct (Z.leb _ _); [discriminate|]. apply bind_Ok in H. destruct H as (n & Hn & H).
      apply bind_Ok in H. destruct H as (r & Hr & H). injection H as <-. constructor; eauto.
      right. right. destruct Ho as [(Ho & _)|[(_ & Ho & _)|Ho]]; [contradiction|contradiction|exact Ho].
Qed.

Lemma case_classified c args rs :
  Forall (classified c args) rs -> Forall (classified c args) (map (set_case_flag c) rs).
Proof.
  intros H. apply Forall_map. eapply Forall_impl; [|exact H]. intros o. cbv beta.
  unfold classified, registered, unregistered, positional_option, set_case_flag. cbn. tauto.
Qed.

Lemma sound_lemma c args res :
  cl_style_parser c = None -> Forall has_name (cl_desc c) -> Forall sensible (cl_desc c) ->
  case_fine c -> (Z.of_nat (List.length args) <= INT_MAX)%Z ->
  parse c args = Ok res -> Forall (classified c args) res.
Proof.
  intros Hc Hn Hs Hcase Hlen H. apply run_ok in H. destruct H as (r1 & r2 & r4 & Hm & Hmg & Hp & ->).
  apply main_loop_steps in Hm; auto. apply case_classified.
  assert (Hg : Forall (classified c args) (number_positionals 0 r2)).
  { apply number_classified; [lia|]. eapply merged_grown; eauto using steps_born.
    pose proof (steps_count _ _ _ Hn Hm). lia. }
  destruct (cl_positional c).
  - eapply name_classified; eauto.
  - now subst r4.
Qed.
