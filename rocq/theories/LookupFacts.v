(** Proofs about names, matching and lookup. *)

From Coq Require Import List Ascii String NArith ZArith Bool Arith Lia Permutation.
From Verif Require Import Base Errors Spec BaseFacts Values OptDesc SpecLookup.
Import ListNotations.

Set Implicit Arguments.

(** ** Declarations *)

Lemma getline_aux_join_snoc d cur ps :
  Forall (without d) ps -> ps <> [] ->
  getline_aux d cur (join [d] ps ++ [d]) =
  match ps with p :: ps' => (rev cur ++ p) :: ps' | [] => [] end.
Proof.
  assert (Hp : forall p cur s, without d p ->
     getline_aux d cur (p ++ d :: s) = (rev cur ++ p) :: getline_aux d [] s).
  { induction p as [|x p IHp]; intros cur0 s Hw; simpl.
    - now rewrite char_eqb_refl, app_nil_r.
    - destruct (char_eqb_spec x d) as [->|Hne]; [exfalso; apply Hw; now left|].
      rewrite IHp by (intros H; apply Hw; now right). simpl. now rewrite <- app_assoc. }
  revert cur; induction ps as [|p ps IH]; intros cur Hf Hne; [congruence|].
  inversion Hf as [|? ? Hw Hf']; subst. destruct ps as [|q ps].
  - simpl join. rewrite Hp by auto. reflexivity.
  - change (join [d] (p :: q :: ps)) with (p ++ [d] ++ join [d] (q :: ps)).
    rewrite <- !app_assoc. simpl. rewrite Hp by auto. f_equal. now rewrite IH.
Qed.

Lemma getline_aux_join d cur ps last :
  Forall (without d) ps -> without d last -> last <> [] ->
  getline_aux d cur (join [d] (ps ++ [last])) =
  match ps with p :: ps' => (rev cur ++ p) :: ps' ++ [last] | [] => [rev cur ++ last] end.
Proof.
  assert (Hp : forall p cur s, without d p ->
     getline_aux d cur (p ++ d :: s) = (rev cur ++ p) :: getline_aux d [] s).
  { induction p as [|x p IHp]; intros cur0 s Hw; simpl.
    - now rewrite char_eqb_refl, app_nil_r.
    - destruct (char_eqb_spec x d) as [->|Hne]; [exfalso; apply Hw; now left|].
      rewrite IHp by (intros H; apply Hw; now right). simpl. now rewrite <- app_assoc. }
  intros Hf Hl Hne. revert cur; induction ps as [|p ps IH]; intros cur.
  - simpl. assert (He : rev cur ++ last <> []).
    { intros H. apply app_eq_nil in H. tauto. }
    clear Hf. revert cur He; induction last as [|x l IHl]; intros cur He; simpl.
    + destruct cur; [simpl in He; congruence|]. now rewrite app_nil_r.
    + destruct (char_eqb_spec x d) as [->|Hx]; [exfalso; apply Hl; now left|].
      destruct l as [|y l].
      * simpl. reflexivity.
      * rewrite IHl; simpl; rewrite <- ?app_assoc; auto; try congruence.
        intros H; apply Hl; now right.
  - inversion Hf as [|? ? Hw Hf']; subst. destruct ps as [|q ps].
    + simpl. rewrite Hp by auto. f_equal.
      change (getline_aux d [] (join [d] ([] ++ [last])) = [last]). now rewrite IH.
    + change (join [d] ((p :: q :: ps) ++ [last]))
        with (p ++ [d] ++ join [d] ((q :: ps) ++ [last])).
      simpl app at 2. rewrite Hp by auto. simpl. f_equal.
      change (getline_aux d [] (join [d] ((q :: ps) ++ [last])) = q :: ps ++ [last]).
      now rewrite IH.
Qed.

Definition decode (pieces : list str) : outcome (str * list str) :=
  if (1 <? List.length pieces)%nat then
    match rev pieces with
    | [c] :: rest_rev =>
        let longs := rev rest_rev in
        let longs' := match longs with [[]] => [] | _ => longs end in
        Ok ([c_dash; c], longs')
    | _ => Ok ([], pieces)
    end
  else Ok ([], pieces).

Lemma set_names_decode names :
  set_names names =
  if is_empty (getline_all c_comma names) then Undef UB_assert
  else decode (getline_all c_comma names).
Proof. reflexivity. Qed.

Lemma decode_pieces pieces :
  pieces <> [] ->
  exists short longs, decode pieces = Ok (short, longs) /\ decoded pieces short longs.
Proof.
  unfold decode.
  intros Hne. destruct (exists_last Hne) as (init & last & ->).
  destruct (Nat.ltb_spec 1 (List.length (init ++ [last]))) as [Hlen|Hlen].
  - rewrite rev_app_distr. simpl. rewrite app_length in Hlen. simpl in Hlen.
    assert (Hi : init <> []) by (intros ->; simpl in *; lia).
    destruct last as [|c [|c2 l]].
    + eexists _, _. split; [reflexivity|]. apply dec_long. intros i c H.
      apply app_inj_tail in H. destruct H; discriminate.
    + rewrite rev_involutive.
      destruct init as [|[|x0 i0] [|i1 init]]; try (exfalso; congruence).
      * eexists _, _. split; [reflexivity|]. apply dec_short_only.
      * eexists _, _. split; [reflexivity|]. apply dec_both; discriminate.
      * eexists _, _. split; [reflexivity|]. apply dec_both; [discriminate|congruence].
      * eexists _, _. split; [reflexivity|]. apply dec_both; [discriminate|congruence].
    + eexists _, _. split; [reflexivity|]. apply dec_long. intros i c' H.
      apply app_inj_tail in H. destruct H; discriminate.
  - rewrite app_length in Hlen. simpl in Hlen. assert (init = []) by (destruct init; simpl in *; auto; lia).
    subst init. eexists _, _. split; [reflexivity|]. apply dec_long. intros i c H.
    simpl in H. destruct i; auto. destruct i; discriminate.
Qed.

Lemma names_decoded_lemma init last sem text :
  Forall (without c_comma) init -> without c_comma last -> last <> [] ->
  exists d, new_option (join [c_comma] (init ++ [last])) sem text = Ok d
    /\ decoded (init ++ [last]) (od_short d) (od_longs d)
    /\ od_text d = text /\ od_sem d = sem.
Proof.
  intros Hf Hl Hne. unfold new_option. rewrite set_names_decode. unfold getline_all.
  rewrite getline_aux_join by auto.
  replace (match init with
           | [] => [rev [] ++ last]
           | p :: ps' => (rev [] ++ p) :: ps' ++ [last]
           end) with (init ++ [last]) by (destruct init; reflexivity).
  destruct (@decode_pieces (init ++ [last])) as (s & l & He & Hd).
  { destruct init; discriminate. }
  replace (is_empty (init ++ [last])) with false by (destruct init; reflexivity).
  rewrite He. simpl. eexists; split; [reflexivity|]. simpl. auto.
Qed.

Lemma names_trailing_comma_lemma pieces sem text :
  Forall (without c_comma) pieces -> pieces <> [] ->
  exists d, new_option (join [c_comma] pieces ++ [c_comma]) sem text = Ok d
    /\ decoded pieces (od_short d) (od_longs d)
    /\ od_text d = text /\ od_sem d = sem.
Proof.
  intros Hf Hne. unfold new_option. rewrite set_names_decode. unfold getline_all.
  rewrite getline_aux_join_snoc by auto.
  replace (match pieces with
           | [] => []
           | p :: ps' => (rev [] ++ p) :: ps'
           end) with pieces by (destruct pieces; reflexivity).
  destruct (@decode_pieces pieces) as (s & l & He & Hd); auto.
  replace (is_empty pieces) with false by (destruct pieces; [congruence|reflexivity]).
  rewrite He. simpl. eexists; split; [reflexivity|]. simpl. auto.
Qed.

Lemma names_empty_lemma sem text : new_option [] sem text = Undef UB_assert.
Proof. reflexivity. Qed.

(** ** Folding *)

(** The string comparison looks at. *)
Definition fold_str (ci : bool) (s : str) : str := if ci then map lower_ascii s else s.

Lemma folded_fold ci s t : folded ci s t <-> t = fold_str ci s.
Proof. destruct ci; simpl; [apply lowered_map|reflexivity]. Qed.

Lemma fold_case_ok ci s : (ci = true -> ascii7 s) -> fold_case ci s = Ok (fold_str ci s).
Proof. destruct ci; simpl; intros H; auto. unfold tolower_. apply mapM_tolower_ascii. auto. Qed.

Lemma fold_case_cases ci s :
  fold_case ci s = Ok (fold_str ci s) \/ fold_case ci s = Undef UB_ctype.
Proof.
  destruct ci; simpl; auto. unfold tolower_.
  destruct (mapM_tolower_cases s) as [[_ H]|[_ H]]; auto.
Qed.

Lemma same_name_eq ca cb a b : same_name ca cb a b <-> fold_str ca a = fold_str cb b.
Proof.
  unfold same_name. split.
  - intros (t & H1 & H2). apply folded_fold in H1, H2. congruence.
  - intros H. exists (fold_str ca a). split; apply folded_fold; auto.
Qed.

Lemma fold_str_nil ci s : fold_str ci s = [] <-> s = [].
Proof. destruct ci; simpl; [|reflexivity]. split; [apply map_eq_nil|intros ->; auto]. Qed.

Lemma fold_str_length ci s : List.length (fold_str ci s) = List.length s.
Proof. destruct ci; simpl; auto. apply map_length. Qed.

(** ** [match] *)

(** The loop in terms of booleans over folded names. *)
Definition long_full (lo : str) (names : list str) : bool :=
  existsb (fun n => negb (is_empty n) && str_eqb n lo) names.

Definition star_prefix (n lo : str) : bool :=
  match rev n with
  | c :: _ => char_eqb c c_star && starts_with (removelast n) lo
  | [] => false
  end.

Definition long_approx (g : bool) (lo : str) (names : list str) : bool :=
  existsb (fun n => negb (is_empty n) && (star_prefix n lo || g && starts_with lo n)) names.

Definition result_of (full approx : bool) : match_result :=
  if full then full_match else if approx then approximate_match else no_match.

Definition is_approx r := match r with approximate_match => true | _ => false end.

Lemma match_longs_eq lo g lic names r :
  (lic = true -> Forall ascii7 names) -> r <> full_match ->
  match_longs lo g lic names r =
  Ok (result_of (long_full lo (map (fold_str lic) names))
        (is_approx r || long_approx g lo (map (fold_str lic) names))).
Proof.
  revert r; induction names as [|n names IH]; intros r Hf Hr; simpl.
  - rewrite orb_false_r. destruct r; simpl; congruence.
  - rewrite fold_case_ok; [|intros H; specialize (Hf H); now inversion Hf]. simpl.
    assert (Hf' : lic = true -> Forall ascii7 names).
    { intros H; specialize (Hf H); now inversion Hf. }
    destruct (is_empty (fold_str lic n)) eqn:Ee.
    + simpl. unfold long_full, long_approx in IH. now rewrite IH.
    + apply is_empty_false in Ee. destruct (last_char_nonempty Ee) as (t & c & Ht & Hl).
      rewrite Hl. simpl.
      assert (Hs : star_prefix (fold_str lic n) lo = char_eqb c c_star && starts_with t lo).
      { unfold star_prefix. rewrite Ht, rev_app_distr. simpl. now rewrite removelast_last. }
      assert (Hr' : removelast (fold_str lic n) = t) by now rewrite Ht, removelast_last.
      rewrite Hs, Hr', !found_at_0_starts.
      destruct (str_eqb (fold_str lic n) lo) eqn:Eq; simpl; [reflexivity|].
      rewrite IH; auto.
      * unfold long_full, long_approx. f_equal. f_equal.
        destruct r; simpl; try congruence;
          destruct (char_eqb c c_star), (starts_with t lo), g, (starts_with lo (fold_str lic n)); simpl; auto.
      * destruct r; simpl; try congruence;
          destruct (char_eqb c c_star), (starts_with t lo), g, (starts_with lo (fold_str lic n)); simpl; congruence.
Qed.

(** [match] as a pure function, when all folding is defined. *)
Definition full_b (d : option_description) (typed : str) (lic sic : bool) : bool :=
  long_full (fold_str lic typed) (map (fold_str lic) (od_longs d))
  || str_eqb (fold_str sic (od_short d)) (fold_str lic typed).
Definition approx_b (d : option_description) (typed : str) (g lic : bool) : bool :=
  long_approx g (fold_str lic typed) (map (fold_str lic) (od_longs d)).

Lemma od_match_eq d typed g lic sic :
  (lic = true -> ascii7 typed) -> foldable_option d lic sic ->
  od_match d typed g lic sic = Ok (result_of (full_b d typed lic sic) (approx_b d typed g lic)).
Proof.
  intros Ht [Hl Hs]. unfold od_match, full_b, approx_b. rewrite fold_case_ok by auto. simpl.
  rewrite match_longs_eq by (auto; discriminate). simpl.
  destruct (long_full _ _); simpl; auto.
  destruct (long_approx g _ _); simpl; rewrite fold_case_ok by auto; simpl;
    destruct (str_eqb _ _); reflexivity.
Qed.

Lemma full_b_spec d typed lic sic : full_b d typed lic sic = true <-> full d typed lic sic.
Proof.
  unfold full_b, full, long_full. rewrite orb_true_iff, str_eqb_eq, same_name_eq.
  rewrite existsb_exists. split; intros [H|H]; auto; left.
  - destruct H as (n & Hn & E). apply in_map_iff in Hn. destruct Hn as (l & <- & Hl).
    apply andb_true_iff in E. destruct E as [E1 E2]. apply str_eqb_eq in E2.
    exists l. repeat split; auto.
    + intros ->. apply negb_true_iff, is_empty_false in E1. apply E1. now apply fold_str_nil.
    + now apply same_name_eq.
  - destruct H as (l & Hl & Hne & E). apply same_name_eq in E.
    exists (fold_str lic l). split; [now apply in_map|].
    rewrite E, str_eqb_refl, andb_true_r. apply negb_true_iff, is_empty_false.
    rewrite <- E. now rewrite fold_str_nil.
Qed.

Lemma star_prefix_spec n lo : star_prefix n lo = true <-> exists p t, n = p ++ [c_star] /\ lo = p ++ t.
Proof.
  unfold star_prefix. destruct (rev n) as [|c r] eqn:E.
  - split; [discriminate|]. intros (p & t & -> & _). rewrite rev_app_distr in E. discriminate.
  - assert (Hn : n = rev r ++ [c]) by (rewrite <- (rev_involutive n), E; reflexivity).
    rewrite andb_true_iff, char_eqb_eq, starts_with_prefix, Hn, removelast_last. split.
    + intros [-> [t ->]]. eauto.
    + intros (p & t & H & ->). apply app_inj_tail in H. destruct H as [<- ->]. split; auto. now exists t.
Qed.

Lemma approx_b_spec d typed g lic : approx_b d typed g lic = true <-> approximate d typed g lic.
Proof.
  unfold approx_b, approximate, long_approx. rewrite existsb_exists. split.
  - intros (n & Hn & E). apply in_map_iff in Hn. destruct Hn as (l & <- & Hl).
    apply andb_true_iff in E. destruct E as [E1 E2].
    apply orb_true_iff in E2. destruct E2 as [E2|E2].
    + left. apply star_prefix_spec in E2. destruct E2 as (p & t & Hp & Ht).
      exists l, p, t. repeat split; auto; apply folded_fold; auto.
    + right. apply andb_true_iff in E2. destruct E2 as [-> E2].
      split; auto. apply starts_with_prefix in E2. destruct E2 as [v Hv].
      exists l, (fold_str lic typed), v. repeat split; auto; try (apply folded_fold; auto).
      intros ->. rewrite (proj2 (fold_str_nil lic []) eq_refl) in E1. discriminate.
  - intros [(l & p & t & Hl & Hp & Ht)|(-> & l & u & v & Hl & Hne & Hu & Hv)].
    + apply folded_fold in Hp, Ht. exists (fold_str lic l). split; [now apply in_map|].
      apply andb_true_iff. split.
      * rewrite <- Hp. destruct p; reflexivity.
      * apply orb_true_iff. left. apply star_prefix_spec. eauto.
    + apply folded_fold in Hu, Hv. exists (fold_str lic l). split; [now apply in_map|].
      apply andb_true_iff. split.
      * apply negb_true_iff, is_empty_false. now rewrite fold_str_nil.
      * apply orb_true_iff. right. simpl. apply starts_with_prefix. exists v. congruence.
Qed.

Lemma match_characterised_lemma d typed g lic sic :
  (lic = true -> ascii7 typed) -> foldable_option d lic sic ->
  exists r, od_match d typed g lic sic = Ok r /\ match_spec d typed g lic sic r.
Proof.
  intros Ht Hd. rewrite od_match_eq by auto. eexists; split; [reflexivity|].
  unfold result_of. destruct (full_b d typed lic sic) eqn:Ef; simpl.
  - now apply full_b_spec.
  - assert (~ full d typed lic sic) by (rewrite <- full_b_spec; congruence).
    destruct (approx_b d typed g lic) eqn:Ea; simpl; split; auto.
    + now apply approx_b_spec.
    + rewrite <- approx_b_spec; congruence.
Qed.

Lemma match_spec_unique d typed g lic sic r1 r2 :
  match_spec d typed g lic sic r1 -> match_spec d typed g lic sic r2 -> r1 = r2.
Proof. destruct r1, r2; simpl; tauto. Qed.

Lemma existsb_perm A (f : A -> bool) l l' : Permutation l l' -> existsb f l = existsb f l'.
Proof.
  intros H. apply eq_true_iff_eq. rewrite !existsb_exists. split; intros (x & Hx & E); exists x; split; auto.
  - eapply Permutation_in; eauto.
  - eapply Permutation_in; [apply Permutation_sym|]; eauto.
Qed.

Lemma match_longs_order_lemma d d' typed g lic sic :
  (lic = true -> ascii7 typed) -> foldable_option d lic sic ->
  Permutation (od_longs d) (od_longs d') -> od_short d = od_short d' ->
  od_match d typed g lic sic = od_match d' typed g lic sic.
Proof.
  intros Ht Hd Hp Hs.
  assert (Hd' : foldable_option d' lic sic).
  { destruct Hd as [H1 H2]. split; [|now rewrite <- Hs].
    intros Hl. specialize (H1 Hl). rewrite Forall_forall in *. intros x Hx. apply H1.
    eapply Permutation_in; [apply Permutation_sym|]; eauto. }
  rewrite !od_match_eq by auto. f_equal.
  unfold full_b, approx_b, long_full, long_approx. rewrite Hs. f_equal; [f_equal|];
    apply existsb_perm; now apply Permutation_map.
Qed.

(** [match] is either well defined or undefined behaviour of [tolower]. *)
Lemma match_longs_cases lo g lic names r :
  (exists r', match_longs lo g lic names r = Ok r') \/ match_longs lo g lic names r = Undef UB_ctype.
Proof.
  revert r; induction names as [|n names IH]; intros r; simpl; [left; eauto|].
  destruct (fold_case_cases lic n) as [->| ->]; simpl; [|now right].
  destruct (is_empty (fold_str lic n)) eqn:Ee; auto.
  apply is_empty_false in Ee. destruct (last_char_nonempty Ee) as (t & c & Ht & Hl).
  rewrite Hl. simpl. destruct (str_eqb (fold_str lic n) lo); [left; eauto|]. apply IH.
Qed.

Lemma od_match_cases d typed g lic sic :
  (exists r, od_match d typed g lic sic = Ok r) \/ od_match d typed g lic sic = Undef UB_ctype.
Proof.
  unfold od_match. destruct (fold_case_cases lic typed) as [->| ->]; simpl; [|now right].
  destruct (match_longs_cases (fold_str lic typed) g lic (od_longs d) no_match) as [[r ->]| ->];
    simpl; [|now right].
  destruct r; [|left; eauto|]; (destruct (fold_case_cases sic (od_short d)) as [->| ->]; simpl; [|now right]);
    destruct (str_eqb _ _); left; eauto.
Qed.

(** ** [find_nothrow] *)

Definition is_full r := match r with full_match => true | _ => false end.

(** The full and the approximate matches, computed. *)
Fixpoint classify (ds : list option_description) (rs : list match_result)
    (want : match_result -> bool) : list option_description :=
  match ds, rs with
  | d :: ds', r :: rs' => (if want r then [d] else []) ++ classify ds' rs' want
  | _, _ => []
  end.

Lemma find_loop_eq name g lic sic ds rs st :
  Forall2 (fun d r => od_match d name g lic sic = Ok r) ds rs ->
  exists found had,
  find_loop name g lic sic ds st =
  Ok (mk_fs found had
        (fs_approx st ++ map (fun d => od_key d name) (classify ds rs is_approx))
        (fs_full st ++ map (fun d => od_key d name) (classify ds rs is_full)))
  /\ had = fs_had_full st || negb (is_empty (classify ds rs is_full))
  /\ found = match rev (classify ds rs is_full) with
             | d :: _ => Some d
             | [] => if fs_had_full st then fs_found st
                     else match rev (classify ds rs is_approx) with
                          | d :: _ => Some d
                          | [] => fs_found st
                          end
             end.
Proof.
  intros H. revert st; induction H as [|d r ds rs Hr Hrs IH]; intros st; simpl.
  - exists (fs_found st), (fs_had_full st). rewrite !app_nil_r.
    split; [destruct st; reflexivity|].
    rewrite orb_false_r. split; auto. destruct (fs_had_full st); auto.
  - rewrite Hr. simpl. destruct r; simpl.
    + apply IH.
    + destruct (IH (mk_fs (Some d) true (fs_approx st) (fs_full st ++ [od_key d name])))
        as (f & h & He & Hh & Hf).
      simpl in *. exists f, h. rewrite He. rewrite <- app_assoc. simpl.
      split; [reflexivity|]. split; [now rewrite orb_true_r|].
      rewrite Hf. destruct (rev (classify ds rs is_full)); reflexivity.
    + destruct (IH (mk_fs (if fs_had_full st then fs_found st else Some d) (fs_had_full st)
          (fs_approx st ++ [od_key d name]) (fs_full st))) as (f & h & He & Hh & Hf).
      simpl in *. exists f, h. rewrite He. rewrite <- app_assoc. simpl.
      split; [reflexivity|]. split; [auto|].
      rewrite Hf. destruct (rev (classify ds rs is_full)); auto.
      destruct (fs_had_full st); auto.
      destruct (rev (classify ds rs is_approx)); reflexivity.
Qed.

(** Lookup in terms of the two lists. *)
Definition find_result (name : str) (fulls apps : list option_description)
  : outcome (option option_description) :=
  match fulls, apps with
  | [d], _ => Ok (Some d)
  | _ :: _, _ => Throw (mk_ambiguous (map (fun d => od_key d name) fulls))
  | [], [] => Ok None
  | [], [d] => Ok (Some d)
  | [], _ => Throw (mk_ambiguous (map (fun d => od_key d name) apps))
  end.

Lemma find_nothrow_eq name g lic sic ds rs :
  Forall2 (fun d r => od_match d name g lic sic = Ok r) ds rs ->
  find_nothrow ds name g lic sic =
  find_result name (classify ds rs is_full) (classify ds rs is_approx).
Proof.
  intros H. unfold find_nothrow.
  destruct (@find_loop_eq name g lic sic ds rs (mk_fs None false [] []) H) as (f & h & He & Hh & Hf). simpl in *.
  rewrite He. simpl. rewrite !map_length. subst f.
  destruct (classify ds rs is_full) as [|f1 [|f2 fs]]; simpl; auto.
  destruct (classify ds rs is_approx) as [|a1 [|a2 aps]]; simpl; auto.
Qed.

(** All the results exist, or lookup is undefined. *)
Lemma find_nothrow_cases name g lic sic ds :
  (exists rs, Forall2 (fun d r => od_match d name g lic sic = Ok r) ds rs)
  \/ (find_nothrow ds name g lic sic = Undef UB_ctype
      /\ Exists (fun d => od_match d name g lic sic = Undef UB_ctype) ds).
Proof.
  unfold find_nothrow. generalize (mk_fs None false [] []).
  induction ds as [|d ds IH]; intros st; simpl; [left; eauto|].
  destruct (od_match_cases d name g lic sic) as [[r Hr]|Hr]; rewrite Hr; simpl.
  - destruct (IH st) as [[rs Hrs]|_]; [left; eexists; constructor; eauto|].
    assert (Hall : forall st', (exists rs, Forall2 (fun d r => od_match d name g lic sic = Ok r) ds rs)
       \/ find_loop name g lic sic ds st' = Undef UB_ctype /\
          Exists (fun d => od_match d name g lic sic = Undef UB_ctype) ds).
    { intros st'. destruct (IH st') as [H|[H1 H2]]; [now left|right]. split; auto.
      destruct (find_loop name g lic sic ds st') as [x| | |]; simpl in *; try congruence.
      destruct (1 <? List.length (fs_full x))%nat; [discriminate|].
      destruct (is_empty (fs_full x) && (1 <? List.length (fs_approx x))%nat); discriminate. }
    assert (H : forall st', (exists rs, Forall2 (fun d r => od_match d name g lic sic = Ok r) (d :: ds) rs)
       \/ find_loop name g lic sic ds st' = Undef UB_ctype /\
          Exists (fun d => od_match d name g lic sic = Undef UB_ctype) (d :: ds)).
    { intros st'. destruct (Hall st') as [[rs Hrs]|[H1 H2]]; [left; eexists; constructor; eauto|right; auto]. }
    destruct r.
    + destruct (H st) as [H'|[-> H']]; auto.
    + destruct (H (mk_fs (Some d) true (fs_approx st) (fs_full st ++ [od_key d name])))
        as [H'|[-> H']]; auto.
    + destruct (H (mk_fs (if fs_had_full st then fs_found st else Some d) (fs_had_full st)
               (fs_approx st ++ [od_key d name]) (fs_full st))) as [H'|[-> H']]; auto.
  - right. split; auto.
Qed.

Lemma is_key_od_key d typed : is_key d typed (od_key d typed).
Proof.
  unfold is_key, od_key. destruct (od_longs d) as [|f r] eqn:E; [right; right; auto|].
  destruct (find_char c_star f) eqn:Ef.
  - right; left. exists f, r. repeat split; auto. apply find_char_Some in Ef.
    destruct Ef as (a & b & -> & _). apply in_or_app. right. now left.
  - left. exists f, r. repeat split; auto. now apply find_char_None in Ef.
Qed.

Lemma is_key_unique d typed k : is_key d typed k -> k = od_key d typed.
Proof.
  unfold is_key, od_key. intros [(f & r & -> & Hs & ->)|[(f & r & -> & Hs & ->)|[-> ->]]]; auto.
  - apply find_char_None in Hs. now rewrite Hs.
  - destruct (find_char c_star f) eqn:Ef; auto. apply find_char_None in Ef. contradiction.
Qed.

Lemma Forall2_is_key name ds : Forall2 (fun d k => is_key d name k) ds (map (fun d => od_key d name) ds).
Proof. induction ds; simpl; constructor; auto. apply is_key_od_key. Qed.

Lemma find_result_spec name fulls apps : lookup_result name fulls apps (find_result name fulls apps).
Proof.
  unfold find_result. destruct fulls as [|f1 [|f2 fs]].
  - destruct apps as [|a1 [|a2 aps]]; constructor. apply (Forall2_is_key name (a1 :: a2 :: aps)).
  - constructor.
  - constructor. apply (Forall2_is_key name (f1 :: f2 :: fs)).
Qed.

Lemma foldable_matches ds typed g lic sic :
  foldable ds typed lic sic ->
  exists rs, Forall2 (fun d r => od_match d typed g lic sic = Ok r
                                /\ match_spec d typed g lic sic r) ds rs.
Proof.
  intros [Ht Hd]. induction Hd as [|d ds Hd Hds IH]; [eexists; constructor|].
  destruct IH as [rs IH]. destruct (match_characterised_lemma g Ht Hd) as (r & H1 & H2).
  exists (r :: rs). constructor; auto.
Qed.

Lemma classify_selects ds rs typed g lic sic :
  Forall2 (fun d r => match_spec d typed g lic sic r) ds rs ->
  selects (fun d => full d typed lic sic) ds (classify ds rs is_full)
  /\ selects (fun d => ~ full d typed lic sic /\ approximate d typed g lic) ds (classify ds rs is_approx).
Proof.
  induction 1 as [|d r ds rs Hr Hrs [IH1 IH2]]; simpl; [split; constructor|].
  destruct r; simpl in *; split; try (apply selects_skip; tauto); apply selects_take; tauto.
Qed.

Lemma find_characterised_lemma ds typed g lic sic :
  foldable ds typed lic sic ->
  exists fulls apps,
    selects (fun d => full d typed lic sic) ds fulls
    /\ selects (fun d => ~ full d typed lic sic /\ approximate d typed g lic) ds apps
    /\ lookup_result typed fulls apps (find_nothrow ds typed g lic sic).
Proof.
  intros Hf. destruct (foldable_matches g Hf) as [rs Hrs].
  assert (H1 : Forall2 (fun d r => od_match d typed g lic sic = Ok r) ds rs).
  { clear -Hrs. induction Hrs; constructor; tauto. }
  assert (H2 : Forall2 (fun d r => match_spec d typed g lic sic r) ds rs).
  { clear -Hrs. induction Hrs; constructor; tauto. }
  destruct (@classify_selects _ _ _ _ _ _ H2) as [Ha Hb].
  exists (classify ds rs is_full), (classify ds rs is_approx). repeat split; auto.
  rewrite (@find_nothrow_eq _ _ _ _ _ _ H1). apply find_result_spec.
Qed.

Lemma find_unknown_lemma ds typed g lic sic :
  find ds typed g lic sic =
  match find_nothrow ds typed g lic sic with
  | Ok (Some d) => Ok d
  | Ok None => Throw (mk_unknown_option [])
  | Throw e => Throw e
  | Undef u => Undef u
  | NoFuel => NoFuel
  end.
Proof. unfold find. destruct (find_nothrow ds typed g lic sic) as [[d|]| | |]; reflexivity. Qed.

(** ** Independence of order *)

(** Equal up to the order of the reported alternatives. *)
Definition same_lookup (R : list str -> list str -> Prop)
    (a b : outcome (option option_description)) : Prop :=
  a = b \/ exists alts alts', R alts alts' /\ a = Throw (mk_ambiguous alts)
                              /\ b = Throw (mk_ambiguous alts').

Definition total_results name g lic sic ds :=
  Forall (fun d => exists r, od_match d name g lic sic = Ok r) ds.

Lemma Forall_exists_Forall2 A B (P : A -> B -> Prop) l :
  Forall (fun a => exists b, P a b) l -> exists l', Forall2 P l l'.
Proof. induction 1 as [|a l [b Hb] _ [l' IH]]; [eexists; constructor|exists (b :: l'); constructor; auto]. Qed.

Lemma Forall2_exists_Forall A B (P : A -> B -> Prop) l l' :
  Forall2 P l l' -> Forall (fun a => exists b, P a b) l.
Proof. induction 1; constructor; eauto. Qed.

(** The classification as a filter, when all results are defined. *)
Definition want_b name g lic sic (want : match_result -> bool) (d : option_description) : bool :=
  match od_match d name g lic sic with Ok r => want r | _ => false end.

Lemma classify_filter name g lic sic want ds rs :
  Forall2 (fun d r => od_match d name g lic sic = Ok r) ds rs ->
  classify ds rs want = filter (want_b name g lic sic want) ds.
Proof.
  induction 1 as [|d r ds rs Hr Hrs IH]; simpl; auto.
  unfold want_b at 1. rewrite Hr, IH. destruct (want r); reflexivity.
Qed.

Lemma filter_perm A (f : A -> bool) l l' : Permutation l l' -> Permutation (filter f l) (filter f l').
Proof.
  induction 1; simpl; auto.
  - destruct (f x); auto.
  - destruct (f x), (f y); auto. apply perm_swap.
  - eapply Permutation_trans; eauto.
Qed.

Lemma find_result_perm name f f' a a' :
  Permutation f f' -> Permutation a a' ->
  same_lookup (@Permutation str) (find_result name f a) (find_result name f' a').
Proof.
  intros Hf Ha. unfold find_result.
  destruct f as [|f1 [|f2 fs]].
  - apply Permutation_nil in Hf. subst f'. destruct a as [|a1 [|a2 aps]].
    + apply Permutation_nil in Ha. subst a'. now left.
    + apply Permutation_length_1_inv in Ha. subst a'. now left.
    + destruct a' as [|b1 [|b2 bs]].
      * apply Permutation_length in Ha. discriminate.
      * apply Permutation_length in Ha. discriminate.
      * right. eexists _, _. split; [|split; reflexivity].
        apply (Permutation_map (fun d => od_key d name) Ha).
  - apply Permutation_length_1_inv in Hf. subst f'. now left.
  - destruct f' as [|b1 [|b2 bs]].
    + apply Permutation_length in Hf. discriminate.
    + apply Permutation_length in Hf. discriminate.
    + right. eexists _, _. split; [|split; reflexivity].
      apply (Permutation_map (fun d => od_key d name) Hf).
Qed.

Lemma find_undef_perm name g lic sic ds :
  Exists (fun d => od_match d name g lic sic = Undef UB_ctype) ds ->
  find_nothrow ds name g lic sic = Undef UB_ctype.
Proof.
  intros H. destruct (find_nothrow_cases name g lic sic ds) as [[rs Hrs]|[H1 _]]; auto.
  exfalso. induction Hrs; inversion H; subst; auto. congruence.
Qed.

Lemma Exists_perm A (P : A -> Prop) l l' : Permutation l l' -> Exists P l -> Exists P l'.
Proof.
  intros Hp. rewrite !Exists_exists. intros (x & Hx & HP). exists x. split; auto.
  eapply Permutation_in; eauto.
Qed.

Lemma find_order_lemma ds ds' name g lic sic :
  Permutation ds ds' ->
  same_lookup (@Permutation str) (find_nothrow ds name g lic sic) (find_nothrow ds' name g lic sic).
Proof.
  intros Hp. destruct (find_nothrow_cases name g lic sic ds) as [[rs Hrs]|[H1 H2]].
  - assert (Hrs' : exists rs', Forall2 (fun d r => od_match d name g lic sic = Ok r) ds' rs').
    { apply Forall_exists_Forall2. apply Forall2_exists_Forall in Hrs.
      rewrite Forall_forall in *. intros x Hx. apply Hrs.
      eapply Permutation_in; [apply Permutation_sym|]; eauto. }
    destruct Hrs' as [rs' Hrs'].
    rewrite (@find_nothrow_eq _ _ _ _ _ _ Hrs), (@find_nothrow_eq _ _ _ _ _ _ Hrs').
    rewrite !(@classify_filter _ _ _ _ _ _ _ Hrs), !(@classify_filter _ _ _ _ _ _ _ Hrs').
    apply find_result_perm; now apply filter_perm.
  - left. rewrite H1. symmetry. apply find_undef_perm. eapply Exists_perm; eauto.
Qed.

(** ** Case insensitivity *)

Lemma od_match_fold d n1 n2 g sic :
  same_up_to_case n1 n2 -> od_match d n1 g true sic = od_match d n2 g true sic.
Proof.
  intros H. apply same_up_to_case_map in H. unfold od_match. simpl.
  assert (E : tolower_ n1 = tolower_ n2).
  { unfold tolower_. revert n2 H; induction n1 as [|c n1 IH]; intros [|c2 n2] H; try discriminate; auto.
    simpl in H. injection H as Hc H. simpl. rewrite (IH n2 H).
    assert (Ec : tolower_char c = tolower_char c2); [|now rewrite Ec].
    unfold tolower_char. rewrite Hc.
    assert (Hiff : (N_of_ascii c < 128)%N <-> (N_of_ascii c2 < 128)%N).
    { assert (Hl : forall x, (N_of_ascii x < 128)%N <-> (N_of_ascii (lower_ascii x) < 128)%N).
      { intros x. destruct (lower_ascii_spec x) as [[Hu ->]|[Hu ->]]; [unfold is_upper in Hu; lia|reflexivity]. }
      rewrite (Hl c), (Hl c2), Hc. reflexivity. }
    destruct (N.ltb_spec (N_of_ascii c) 128), (N.ltb_spec (N_of_ascii c2) 128); auto; lia. }
  now rewrite E.
Qed.

Lemma find_case_lemma ds n1 n2 g sic :
  same_up_to_case n1 n2 ->
  same_lookup (Forall2 same_up_to_case)
    (find_nothrow ds n1 g true sic) (find_nothrow ds n2 g true sic).
Proof.
  intros Hc. destruct (find_nothrow_cases n1 g true sic ds) as [[rs Hrs]|[H1 H2]].
  - assert (Hrs' : Forall2 (fun d r => od_match d n2 g true sic = Ok r) ds rs).
    { clear -Hrs Hc. induction Hrs; constructor; auto. now rewrite <- (od_match_fold x g sic Hc). }
    rewrite (@find_nothrow_eq _ _ _ _ _ _ Hrs), (@find_nothrow_eq _ _ _ _ _ _ Hrs').
    generalize (classify ds rs is_full) (classify ds rs is_approx). intros f a.
    assert (Hk : forall l, Forall2 same_up_to_case (map (fun d => od_key d n1) l)
                                                  (map (fun d => od_key d n2) l)).
    { induction l as [|d l IH]; simpl; constructor; auto. unfold od_key.
      assert (Hr : forall s, same_up_to_case s s) by (intros s; now apply same_up_to_case_map).
      destruct (od_longs d) as [|s ?]; auto. destruct (find_char c_star s); auto. }
    unfold find_result. destruct f as [|f1 [|f2 fs]].
    + destruct a as [|a1 [|a2 aps]]; [now left|now left|].
      right. eexists _, _. split; [|split; reflexivity]. apply Hk.
    + now left.
    + right. eexists _, _. split; [|split; reflexivity]. apply Hk.
  - left. rewrite H1. symmetry. apply find_undef_perm.
    clear -H2 Hc. induction H2; [apply Exists_cons_hd|now apply Exists_cons_tl].
    now rewrite <- (od_match_fold x g sic Hc).
Qed.

(** ** Short names and the two case flags *)

Lemma lower_ascii_dash c : lower_ascii c = c_dash -> c = c_dash.
Proof.
  intros H. destruct (lower_ascii_spec c) as [[Hu E]|[Hu E]]; [|congruence].
  rewrite H in E. unfold is_upper in Hu. change (N_of_ascii c_dash) with 45%N in E. lia.
Qed.

Lemma lower_ascii_star c : lower_ascii c = c_star -> c = c_star.
Proof.
  intros H. destruct (lower_ascii_spec c) as [[Hu E]|[Hu E]]; [|congruence].
  rewrite H in E. unfold is_upper in Hu. change (N_of_ascii c_star) with 42%N in E. lia.
Qed.

Lemma fold_dash lic s : fold_str lic (c_dash :: s) = c_dash :: fold_str lic s.
Proof. destruct lic; reflexivity. Qed.

Lemma plain_no_long d s g lic :
  plain_longs d ->
  long_full (fold_str lic (c_dash :: s)) (map (fold_str lic) (od_longs d)) = false
  /\ long_approx g (fold_str lic (c_dash :: s)) (map (fold_str lic) (od_longs d)) = false.
Proof.
  unfold plain_longs, long_full, long_approx. rewrite fold_dash.
  induction (od_longs d) as [|l ls IH]; intros H; cbn [map existsb]; auto.
  inversion H as [|? ? Hl Hls]; subst. destruct (IH Hls) as [-> ->].
  destruct l as [|c l'].
  - destruct lic; simpl; auto.
  - destruct (Hl c l' eq_refl) as [H1 H2].
    assert (Hc : exists c' l'', fold_str lic (c :: l') = c' :: l'' /\ c' <> c_dash /\ c' <> c_star).
    { destruct lic; simpl.
      - exists (lower_ascii c), (map lower_ascii l'). repeat split; auto.
        + intros E. apply lower_ascii_dash in E. auto.
        + intros E. apply lower_ascii_star in E. auto.
      - eauto. }
    destruct Hc as (c' & l'' & -> & Hd & Hs). simpl.
    destruct (char_eqb_spec c' c_dash); [congruence|].
    destruct (char_eqb_spec c_dash c'); [congruence|].
    rewrite andb_false_r, orb_false_r. simpl. split; auto.
    unfold star_prefix. simpl. destruct (rev l'' ++ [c']) as [|x y] eqn:E; auto.
    destruct l'' as [|c2 l3].
    + simpl in E. injection E as <- <-. destruct (char_eqb_spec c' c_star); [congruence|reflexivity].
    + simpl removelast. simpl. destruct (char_eqb_spec c' c_dash); [congruence|]. simpl.
      now rewrite andb_false_r.
Qed.

Lemma find_all_no_match ds name g lic sic :
  Forall (fun d => od_match d name g lic sic = Ok no_match) ds ->
  find_nothrow ds name g lic sic = Ok None.
Proof.
  intros H. assert (Hr : Forall2 (fun d r => od_match d name g lic sic = Ok r) ds
                            (map (fun _ => no_match) ds)).
  { induction H; simpl; constructor; auto. }
  rewrite (@find_nothrow_eq _ _ _ _ _ _ Hr). clear.
  assert (E : forall w, w no_match = false -> classify ds (map (fun _ => no_match) ds) w = []).
  { intros w Hw. induction ds; simpl; auto. now rewrite Hw. }
  now rewrite !E.
Qed.

(** Only [short_case_insensitive]: an upper-case letter typed as short option matches
    nothing. *)
Lemma sic_only_lemma ds c g :
  is_upper c -> Forall plain_longs ds -> Forall (fun d => ascii7 (od_short d)) ds ->
  find_nothrow ds [c_dash; c] g false true = Ok None.
Proof.
  intros Hc Hp Ha. apply find_all_no_match. rewrite Forall_forall in *. intros d Hd.
  rewrite od_match_eq; [|discriminate|split; [discriminate|auto]].
  destruct (plain_no_long [c] g false (Hp d Hd)) as [H1 H2].
  unfold full_b, approx_b. rewrite H1, H2. simpl.
  destruct (str_eqb_spec (map lower_ascii (od_short d)) [c_dash; c]) as [E|E]; auto.
  exfalso. destruct (od_short d) as [|x [|y [|z s]]]; try discriminate.
  simpl in E. injection E as _ E. destruct (lower_ascii_spec y) as [[Hu E2]|[Hu E2]].
  - unfold is_upper in *. rewrite E in E2. lia.
  - congruence.
Qed.

(** Only [long_case_insensitive]: an option registered with an upper-case short name
    only cannot be reached. *)
Lemma lic_only_unreachable_lemma d c typed g :
  od_short d = [c_dash; c] -> od_longs d = [] -> is_upper c -> ascii7 typed ->
  od_match d typed g true false = Ok no_match.
Proof.
  intros Hs Hl Hc Ht. rewrite od_match_eq; auto; [|split; [rewrite Hl; auto|discriminate]].
  unfold full_b, approx_b, long_full, long_approx. rewrite Hl, Hs. cbn [fold_str map existsb orb].
  destruct (str_eqb_spec [c_dash; c] (map lower_ascii typed)) as [E|E]; auto.
  exfalso. destruct typed as [|x [|y [|z s]]]; try discriminate. simpl in E.
  injection E as _ E. destruct (lower_ascii_spec y) as [[Hu E2]|[Hu E2]]; unfold is_upper in *.
  - rewrite <- E in E2. lia.
  - rewrite E2 in E. subst y. tauto.
Qed.

Lemma lic_only_lower_lemma d c c' g :
  od_short d = [c_dash; c'] -> lower_of c c' -> ascii7 [c] -> Forall ascii7 (od_longs d) ->
  od_match d [c_dash; c] g true false = Ok full_match.
Proof.
  intros Hs Hl Ha Hls. inversion Ha as [|? ? Hc _]; subst.
  rewrite od_match_eq; auto.
  - unfold full_b. rewrite Hs. simpl. apply lower_of_fun in Hl. subst c'.
    change (lower_ascii c_dash) with c_dash. rewrite !char_eqb_refl. simpl. now rewrite orb_true_r.
  - intros _. repeat constructor. auto.
  - split; [auto|discriminate].
Qed.

(** ** Undefined behaviour *)

Lemma no_ub_find ds name g lic sic :
  foldable ds name lic sic -> forall u, find_nothrow ds name g lic sic <> Undef u.
Proof.
  intros H u E. destruct (find_characterised_lemma g H) as (f & a & _ & _ & Hr).
  rewrite E in Hr. inversion Hr.
Qed.

Lemma no_ub_sensitive ds name g u : find_nothrow ds name g false false <> Undef u.
Proof.
  apply no_ub_find. split; [discriminate|]. rewrite Forall_forall. intros d _.
  split; discriminate.
Qed.

Lemma ub_typed ds name g sic :
  ds <> [] -> ~ ascii7 name -> find_nothrow ds name g true sic = Undef UB_ctype.
Proof.
  intros Hd Hn. apply find_undef_perm. destruct ds as [|d ds]; [congruence|].
  apply Exists_cons_hd. unfold od_match. simpl. unfold tolower_.
  now rewrite mapM_tolower_not_ascii.
Qed.

Lemma find_never_nofuel ds name g lic sic : find_nothrow ds name g lic sic <> NoFuel.
Proof.
  destruct (find_nothrow_cases name g lic sic ds) as [[rs Hrs]|[H _]]; [|congruence].
  rewrite (@find_nothrow_eq _ _ _ _ _ _ Hrs). unfold find_result.
  destruct (classify ds rs is_full) as [|? [|]]; try discriminate.
  destruct (classify ds rs is_approx) as [|? [|]]; discriminate.
Qed.

Lemma find_throw_ambiguous ds name g lic sic e :
  find_nothrow ds name g lic sic = Throw e -> exists alts, e = mk_ambiguous alts.
Proof.
  destruct (find_nothrow_cases name g lic sic ds) as [[rs Hrs]|[H _]]; [|congruence].
  rewrite (@find_nothrow_eq _ _ _ _ _ _ Hrs). unfold find_result.
  destruct (classify ds rs is_full) as [|? [|]]; try discriminate;
    [destruct (classify ds rs is_approx) as [|? [|]]; try discriminate|]; intros [= <-]; eauto.
Qed.

Lemma find_found_In ds name g lic sic d :
  find_nothrow ds name g lic sic = Ok (Some d) -> In d ds.
Proof.
  destruct (find_nothrow_cases name g lic sic ds) as [[rs Hrs]|[H _]]; [|congruence].
  rewrite (@find_nothrow_eq _ _ _ _ _ _ Hrs), !(@classify_filter _ _ _ _ _ _ _ Hrs).
  assert (Hin : forall w x, In x (filter (want_b name g lic sic w) ds) -> In x ds).
  { intros w x Hx. now apply filter_In in Hx. }
  unfold find_result. destruct (filter _ ds) as [|f1 [|]] eqn:Ef; try discriminate.
  - destruct (filter (want_b name g lic sic is_approx) ds) as [|a1 [|]] eqn:Ea; try discriminate.
    intros [= <-]. apply (Hin is_approx). rewrite Ea. now left.
  - intros [= <-]. apply (Hin is_full). rewrite Ef. now left.
Qed.
