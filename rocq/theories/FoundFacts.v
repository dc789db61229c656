(** Options returned by the command line parser are found by the exact lookup of
    [store]. *)

From Coq Require Import List Ascii String NArith ZArith Bool Arith Lia.
From Verif Require Import Base Errors Spec BaseFacts Values OptDesc SpecLookup LookupFacts
  KeyFacts Positional Cmdline SpecCmdline CmdlineFacts RunFacts ParseFacts SoundFacts.
Import ListNotations.

Lemma full_b_sensitive d typed ci : full_b d typed false false = true -> full_b d typed ci ci = true.
Proof.
  rewrite !full_b_spec. unfold full. intros [(l & H1 & H2 & H3)|H].
  - left. exists l. split; auto. split; auto. rewrite same_name_eq in *. cbn in H3. now subst.
  - right. rewrite same_name_eq in *. cbn in H. now rewrite H.
Qed.

Lemma exact_found ds typed key g ci d :
  foldable ds key ci ci -> find_nothrow ds key g ci ci = Ok (Some d) -> is_key d typed key -> key <> [] ->
  (ci = false /\ g = false \/ plain_key d) ->
  find ds key false false false = Ok d.
Proof.
  intros Hf H Hk Hn Hc. unfold find.
  destruct Hc as [[-> ->]|Hp]; [now rewrite H|].
  assert (Hfull : full_b d key false false = true).
  { apply full_b_spec. unfold full. unfold plain_key in Hp.
    destruct Hk as [(f & r & E & _ & ->)|[(f & r & E & Hs & _)|(E & ->)]].
    - left. exists f. rewrite E. split; [now left|]. split; auto. now apply same_name_eq.
    - rewrite E in Hp. contradiction.
    - right. now apply same_name_eq. }
  pose proof (find_found_In _ _ _ _ _ H) as Hin.
  rewrite find_filter in H by auto. rewrite find_filter by apply foldable_sensitive.
  assert (Hs : fulls_of ds key false false = [d]).
  { assert (Hd : In d (fulls_of ds key ci ci)).
    { apply filter_In. split; auto. now apply full_b_sensitive. }
    unfold find_result in H. destruct (fulls_of ds key ci ci) as [|f [|]] eqn:Ef; try discriminate; [destruct Hd|].
    destruct Hd as [->|[]].
    destruct (filter_sub _ (fun x => full_b x key ci ci) (fun x => full_b x key false false) ds d) as [E|E]; auto.
    - intros y _. apply full_b_sensitive.
    - exfalso. assert (Hd : In d (filter (fun x => full_b x key false false) ds)) by (apply filter_In; auto).
      rewrite E in Hd. destruct Hd. }
  rewrite Hs. reflexivity.
Qed.

Lemma found_lemma c args res :
  cl_style_parser c = None -> Forall has_name (cl_desc c) -> Forall sensible (cl_desc c) ->
  (Z.of_nat (List.length args) <= INT_MAX)%Z ->
  case_sensitive c /\ (has (cl_style c) allow_guessing = false \/ Forall plain_key (cl_desc c))
  \/ has (cl_style c) long_case_insensitive = true /\ has (cl_style c) short_case_insensitive = true
     /\ case_fine c /\ Forall plain_key (cl_desc c) ->
  parse c args = Ok res ->
  forall o, In o res -> po_unreg o = false -> po_pos o = (-1)%Z ->
  exists d, find (cl_desc c) (po_key o) false false false = Ok d.
Proof.
  intros Hc Hn Hs Hlen Hcase Hp o Ho Hu Hpos.
  assert (Hfine : case_fine c) by (destruct Hcase as [[H _]|H]; [now left|tauto]).
  pose proof (sound_lemma c args res Hc Hn Hs Hfine Hlen Hp) as Hcl.
  rewrite Forall_forall in Hcl. destruct (Hcl o Ho) as [Hr|[(_ & _ & Hu' & _)|(Hp' & _)]].
  - destruct Hr as (_ & _ & tok & typed & d & Hin & Hnm & Hl & Hk & Hlk & _).
    exists d. assert (Hkn : po_key o <> []).
    { apply is_key_unique in Hk. rewrite Hk. apply key_nonempty.
      - rewrite Forall_forall in Hn. apply Hn. eapply lookup_In; eauto.
      - intros ->. inversion Hnm; subst; try discriminate; congruence. }
    unfold lookup in Hlk. destruct Hcase as [[[E1 E2] Hg]|(E1 & E2 & _ & Hpk)].
    + rewrite E1, E2 in Hlk. eapply exact_found; eauto using foldable_sensitive.
      destruct Hg as [Hg|Hg]; [left; auto|right]. rewrite Forall_forall in Hg. apply Hg.
      eapply find_found_In; eauto.
    + rewrite E1, E2 in Hlk. pose proof (find_found_In _ _ _ _ _ Hlk) as Hd.
      assert (Hpd : plain_key d) by (rewrite Forall_forall in Hpk; auto).
      eapply exact_found; eauto. destruct Hfine as [[E _]|(_ & Ha)]; [congruence|].
      split.
      * intros _. rewrite Forall_forall in Ha. destruct (Ha d Hd) as [Ha1 Ha2].
        unfold plain_key in Hpd.
        destruct Hk as [(f & r & E & _ & ->)|[(f & r & E & Hst & _)|(E & ->)]].
        -- rewrite E in Ha1. now inversion Ha1.
        -- rewrite E in Hpd. contradiction.
        -- exact Ha2.
      * eapply Forall_impl; [|exact Ha]. intros x [H1 H2]. split; auto.
  - congruence.
  - lia.
Qed.
