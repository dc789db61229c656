(** Proofs for C115. *)

From Coq Require Import List Ascii String NArith ZArith Bool Arith Lia.
From Verif Require Import Base BaseFacts Errors Spec Values OptDesc SpecLookup Positional Cmdline SpecCmdline PositionalFacts SpecReject
  SpecGrammar Parsers Streams ConfigFacts SpecConfig VarMap SpecStore SpecFrame SpecUserEnv Release SpecRelease.
Import ListNotations.

Lemma same_refl {A} (x : outcome A) : as_with_assertions x x.
Proof. now right. Qed.

Lemma same_bind {A B} (x x' : outcome A) (k k' : A -> outcome B) :
  as_with_assertions x x' -> (forall a, x = Ok a -> as_with_assertions (k a) (k' a)) -> as_with_assertions (bind x k) (bind x' k').
Proof.
  intros [(u & ->)|E] Hk; [left; eexists; reflexivity|]. subst x'. destruct x as [a|e|u|]; cbn [bind].
  - auto.
  - now right.
  - left; eexists; reflexivity.
  - now right.
Qed.

Lemma env_split_same s p : env_split s = Ok p -> rel_env_split s = p.
Proof. unfold env_split, rel_env_split. destruct (find_char c_eq s); [|discriminate]. now intros [= <-]. Qed.

Lemma env_get_same env i : as_with_assertions (env_get env i) (rel_env_get env i).
Proof.
  destruct env as [a|]; cbn; [|apply same_refl]. destruct (nth_error a i) as [[s|]|]; try apply same_refl.
  unfold env_split, rel_env_split. destruct (find_char c_eq s); cbn; [apply same_refl|]. left; eauto.
Qed.

Lemma env_loop_same mapper env : forall fuel i, as_with_assertions (env_loop fuel env i mapper) (rel_env_loop fuel env i mapper).
Proof.
  induction fuel as [|fuel IH]; intros i; [apply same_refl|]. cbn [env_loop rel_env_loop].
  apply same_bind; [apply env_get_same|]. intros [p|] _; [|apply same_refl].
  apply same_bind; [apply same_refl|]. intros name _. apply same_bind; [apply IH|]. intros; apply same_refl.
Qed.

Lemma env_entry_split s n v : env_entry s n v -> without c_eq n -> rel_env_split s = (n, v).
Proof.
  intros H _. destruct H as [n v H|s H].
  - apply env_split_same, env_split_var, H.
  - unfold rel_env_split. apply find_char_None in H. rewrite H. reflexivity.
Qed.

Lemma env_entry_name s n v : env_entry s n v -> without c_eq n.
Proof. now destruct 1. Qed.

Lemma rel_env_list g beyond : forall strings pairs, Forall2 (fun s p => env_entry s (fst p) (snd p)) strings pairs ->
  forall before fuel, List.length strings < fuel ->
  rel_env_loop fuel (Some (before ++ map Some strings ++ None :: beyond)) (List.length before) (fun n => Ok (g n))
  = Ok (env_named (map g (map fst pairs)) (map snd pairs)).
Proof.
  induction 1 as [|s (n & v) strings pairs H _ IH]; intros before fuel Hf; (destruct fuel as [|fuel]; [cbn in Hf; lia|]);
    cbn [rel_env_loop]; unfold rel_env_get at 1.
  - cbn [map app]. rewrite nth_error_app2, Nat.sub_diag by lia. reflexivity.
  - cbn [map app]. rewrite nth_error_app2, Nat.sub_diag by lia. cbn [nth_error bind fst snd] in *.
    rewrite (env_entry_split _ _ _ H (env_entry_name _ _ _ H)). cbn [bind fst snd].
    specialize (IH (before ++ [Some s]) fuel). rewrite app_length, <- app_assoc in IH. cbn [List.length app] in IH.
    rewrite Nat.add_1_r in IH. rewrite IH by (cbn in Hf; lia). reflexivity.
Qed.

Lemma positional_add_same p n k : as_with_assertions (positional_add p n k) (rel_positional_add p n k).
Proof.
  unfold positional_add, rel_positional_add. destruct (Z.eqb k (-1)); [|apply same_refl].
  destruct (is_empty (pos_trailing p)); [apply same_refl|left; eauto].
Qed.

Lemma add_all_same : forall calls p, as_with_assertions (add_all p calls) (rel_add_all p calls).
Proof.
  induction calls as [|(n & k) calls IH]; intros p; [apply same_refl|]. cbn [add_all rel_add_all].
  apply same_bind; [apply positional_add_same|]. intros; apply IH.
Qed.

Lemma rel_add_nonneg p n k : (0 <= k)%Z -> rel_positional_add p n k = Ok (mk_pos (pos_names p ++ repeat n (Z.to_nat k)) (pos_trailing p)).
Proof.
  intros H. unfold rel_positional_add. destruct (Z.eqb_spec k (-1)); [lia|].
  destruct (Z.ltb_spec (Z.of_nat (List.length (pos_names p)) + k) 0); [lia|].
  rewrite Z2Nat.inj_add, Nat2Z.id by lia. rewrite firstn_all2 by lia.
  replace (List.length (pos_names p) + Z.to_nat k - List.length (pos_names p)) with (Z.to_nat k) by lia. reflexivity.
Qed.

Lemma rel_add_all_value : forall calls p, Forall (fun nk => (-1 <= snd nk)%Z) calls ->
  rel_add_all p calls = Ok (mk_pos (pos_names p ++ expand (limited calls)) (unlimited calls (pos_trailing p))).
Proof.
  induction calls as [|(n & k) calls IH]; intros p H.
  - cbn. rewrite app_nil_r. now destruct p.
  - inversion H as [|? ? H1 H2]; subst. cbn [snd] in H1. cbn [rel_add_all limited unlimited].
    destruct (Z.eqb_spec k (-1)) as [E|E].
    + subst k. cbn [rel_positional_add Z.eqb]. unfold rel_positional_add. cbn. now rewrite IH.
    + rewrite rel_add_nonneg by lia. cbn [bind]. rewrite IH by auto. cbn [pos_names pos_trailing expand]. now rewrite app_assoc.
Qed.

Lemma grab_same' : forall following k opt,
  as_with_assertions (grab_positional k opt following) (rel_grab_positional k opt following).
Proof.
  induction following as [|o l IH]; intros k opt; [apply same_refl|]. cbn [grab_positional rel_grab_positional].
  destruct (Z.eqb k 0); [apply same_refl|]. destruct (negb (is_empty (po_key o))); [apply same_refl|].
  destruct (Z.eqb (po_pos o) INT_MAX); [apply same_refl|].
  destruct (po_value o) as [|v [|]]; [left; eauto| |left; eauto]. destruct (po_orig o) as [|t [|]]; [left; eauto| |left; eauto].
  cbn. destruct (Z.eqb k INT_MIN); [apply same_refl|apply IH].
Qed.

Lemma merge_same' c : forall fuel l, as_with_assertions (merge_pass fuel c l) (rel_merge_pass fuel c l).
Proof.
  induction fuel as [|fuel IH]; intros [|opt rest]; try apply same_refl. cbn [merge_pass rel_merge_pass].
  destruct (is_empty (po_key opt)); [apply same_bind; [apply IH|intros; apply same_refl]|].
  apply same_bind; [apply same_refl|]. intros [d|] _; [|apply same_bind; [apply IH|intros; apply same_refl]].
  cbv zeta. destruct (Z.ltb _ _ && Z.ltb _ _); [|apply same_bind; [apply IH|intros; apply same_refl]].
  apply same_bind; [apply grab_same'|]. intros g _. apply same_bind; [apply IH|intros; apply same_refl].
Qed.

Lemma set_names_same names n : set_names names = Ok n -> rel_set_names names = n.
Proof.
  unfold set_names, rel_set_names. destruct (is_empty (getline_all c_comma names)); [discriminate|].
  destruct (1 <? List.length (getline_all c_comma names))%nat; [|now intros [= <-]].
  destruct (rev (getline_all c_comma names)) as [|[|x [|]] l]; now intros [= <-].
Qed.

(** An option without names *)
Lemma folded_nil b t : folded b [] t -> t = [].
Proof. unfold folded, lowered. destruct b; [intros H; now inversion H|now intros ->]. Qed.

Lemma folded_to_nil b s : folded b s [] -> s = [].
Proof. unfold folded, lowered. destruct b; [intros H; now inversion H|now intros <-]. Qed.

Lemma unnamed_full d s lic sic : unnamed d -> full d s lic sic <-> s = [].
Proof.
  intros (H1 & H2). unfold full. rewrite H1, H2. split.
  - intros [(l & [] & _)|(t & Ht & Hs)]. apply folded_nil in Ht. subst t. now apply folded_to_nil in Hs.
  - intros ->. right. exists []. split; destruct sic, lic; cbn; try reflexivity; constructor.
Qed.

Lemma unnamed_approx d s g lic : unnamed d -> ~ approximate d s g lic.
Proof. intros (_ & H). unfold approximate. rewrite H. intros [(l & p & t & [] & _)|(_ & l & u & v & [] & _)]. Qed.

Lemma unnamed_foldable d lic sic : unnamed d -> foldable_option d lic sic.
Proof. intros (H1 & H2). unfold foldable_option. rewrite H1, H2. split; intros _; constructor. Qed.

Lemma unnamed_passes ds d s g lic sic : unnamed d -> s <> [] -> (lic = true -> ascii7 s) -> passes_over ds d s g lic sic.
Proof.
  intros Hd Hs Ha. split; [exact Ha|]. split.
  - rewrite unnamed_full by auto. auto.
  - intros H. now apply unnamed_approx in H.
Qed.

Lemma unnamed_silent c d tok : unnamed d -> has (cl_style c) long_case_insensitive = false -> ~ nameless tok -> unclaimed c [] -> silent_on c d tok.
Proof.
  intros Hd Hl Hn Hu. split.
  - intros s Hs. unfold spared. rewrite Hl. apply unnamed_passes; [exact Hd| |discriminate].
    intros E. subst s. apply Hn. inversion Hs as [n v (f & _ & _ & H)|n vs _ H|n m (_ & H1 & H2) (_ & H3)|H]; subst.
    + contradiction.
    + inversion H as [? H1|? v H1 H2]; subst; [contradiction|]. exists v. left. reflexivity.
    + destruct H3 as [->|(v & ->)]; [contradiction|]. exists v. destruct H2 as [(-> & _)|(-> & _)]; cbn; auto.
    + destruct H as [(n & v & H)|[(r & H)|(r & H)]]; try discriminate. destruct (Hu n v H).
  - intros x _. split; unfold spared; rewrite ?Hl; (apply unnamed_passes; [exact Hd|discriminate|discriminate]).
Qed.
