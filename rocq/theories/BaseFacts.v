(** Facts about the base vocabulary. *)

From Coq Require Import List Ascii String NArith ZArith Bool Arith Lia.
From Coq Require Import Sorting.Sorted.
From Verif Require Import Base Errors Spec.
Import ListNotations.

Set Implicit Arguments.

(** ** Characters *)

Lemma char_eqb_eq a b : char_eqb a b = true <-> a = b.
Proof. apply Ascii.eqb_eq. Qed.

Lemma char_eqb_neq a b : char_eqb a b = false <-> a <> b.
Proof. apply Ascii.eqb_neq. Qed.

Lemma char_eqb_refl a : char_eqb a a = true.
Proof. apply Ascii.eqb_refl. Qed.

Lemma char_eqb_sym a b : char_eqb a b = char_eqb b a.
Proof. apply Ascii.eqb_sym. Qed.

Lemma char_eqb_spec a b : reflect (a = b) (char_eqb a b).
Proof. apply Ascii.eqb_spec. Qed.

Lemma N_of_ascii_inj a b : N_of_ascii a = N_of_ascii b -> a = b.
Proof.
  intros H. rewrite <- (ascii_N_embedding a), <- (ascii_N_embedding b). now rewrite H.
Qed.

Lemma N_of_ascii_lt a : (N_of_ascii a < 256)%N.
Proof. apply N_ascii_bounded. Qed.

(** ** Strings *)

Lemma str_eqb_eq a b : str_eqb a b = true <-> a = b.
Proof.
  revert b; induction a as [|x a IH]; intros [|y b]; simpl; try (split; congruence).
  rewrite andb_true_iff, char_eqb_eq, IH. split; [intros [-> ->]|intros [= -> ->]]; auto.
Qed.

Lemma str_eqb_refl a : str_eqb a a = true.
Proof. now apply str_eqb_eq. Qed.

Lemma str_eqb_neq a b : str_eqb a b = false <-> a <> b.
Proof.
  rewrite <- not_true_iff_false, str_eqb_eq. reflexivity.
Qed.

Lemma str_eqb_spec a b : reflect (a = b) (str_eqb a b).
Proof. destruct (str_eqb a b) eqn:E; constructor; [now apply str_eqb_eq|now apply str_eqb_neq]. Qed.

Lemma str_eqb_sym a b : str_eqb a b = str_eqb b a.
Proof. destruct (str_eqb_spec a b), (str_eqb_spec b a); congruence. Qed.

Lemma is_empty_true A (l : list A) : is_empty l = true <-> l = [].
Proof. destruct l; simpl; split; congruence. Qed.

Lemma is_empty_false A (l : list A) : is_empty l = false <-> l <> [].
Proof. destruct l; simpl; split; congruence. Qed.

Definition str_dec (a b : str) : {a = b} + {a <> b} := list_eq_dec ascii_dec a b.

(** ** Prefixes and searching *)

Lemma starts_with_prefix p s : starts_with p s = true <-> prefix_of p s.
Proof.
  revert s; induction p as [|x p IH]; intros s; simpl.
  - split; [intros _; exists s; reflexivity|auto].
  - destruct s as [|y s].
    + split; [congruence|intros [t H]; discriminate].
    + rewrite andb_true_iff, char_eqb_eq, IH. split.
      * intros [-> [t ->]]. exists t; reflexivity.
      * intros [t [= -> ->]]. split; [auto|exists t; auto].
Qed.

Lemma found_at_0_starts p s : found_at_0 p s = starts_with p s.
Proof.
  unfold found_at_0. destruct s; simpl; destruct (starts_with p _) eqn:E; auto.
  destruct (find_sub p s); reflexivity.
Qed.

Lemma found_at_0_prefix p s : found_at_0 p s = true <-> prefix_of p s.
Proof. rewrite found_at_0_starts. apply starts_with_prefix. Qed.

Lemma prefix_of_refl A (s : list A) : prefix_of s s.
Proof. exists []; now rewrite app_nil_r. Qed.

Lemma prefix_of_trans A (a b c : list A) : prefix_of a b -> prefix_of b c -> prefix_of a c.
Proof. intros [t ->] [u ->]. exists (t ++ u). now rewrite app_assoc. Qed.

Lemma prefix_of_nil A (s : list A) : prefix_of [] s.
Proof. exists s; reflexivity. Qed.

Lemma prefix_of_nil_inv A (s : list A) : prefix_of s [] -> s = [].
Proof. intros [t H]. destruct s; [auto|discriminate]. Qed.

Lemma prefix_of_length A (a b : list A) : prefix_of a b -> List.length a <= List.length b.
Proof. intros [t ->]. rewrite app_length. lia. Qed.

Lemma prefix_of_comparable A (a b s : list A) :
  prefix_of a s -> prefix_of b s -> prefix_of a b \/ prefix_of b a.
Proof.
  revert b s; induction a as [|x a IH]; intros b s Ha Hb; [left; apply prefix_of_nil|].
  destruct b as [|y b]; [right; apply prefix_of_nil|].
  destruct Ha as [t ->], Hb as [u Hu]. injection Hu as -> Hu.
  destruct (IH b (a ++ t)) as [[v ->]|[v ->]].
  - exists t; auto.
  - exists u; auto.
  - left; exists v; auto.
  - right; exists v; auto.
Qed.

Lemma prefix_dec (a b : str) : prefix_of a b \/ ~ prefix_of a b.
Proof.
  destruct (starts_with a b) eqn:E; [left; now apply starts_with_prefix|right].
  rewrite <- starts_with_prefix. congruence.
Qed.

(** [find_char] splits at the first occurrence. *)
Lemma find_char_app c a b : without c a -> find_char c (a ++ c :: b) = Some (List.length a).
Proof.
  unfold without. induction a as [|x a IH]; intros H; simpl.
  - now rewrite char_eqb_refl.
  - simpl in H. destruct (char_eqb_spec x c) as [->|Hne]; [exfalso; auto|].
    rewrite IH; auto.
Qed.

Lemma find_char_Some c s n :
  find_char c s = Some n <->
  exists a b, s = a ++ c :: b /\ without c a /\ List.length a = n.
Proof.
  split; [|intros (a & b & -> & Ha & <-); now apply find_char_app].
  revert n; induction s as [|x s IH]; intros n; simpl; [discriminate|].
  destruct (char_eqb_spec x c) as [->|Hne].
  - intros [= <-]. exists [], s. repeat split; auto. intros [].
  - destruct (find_char c s) as [m|]; simpl; [|discriminate]. intros [= <-].
    destruct (IH m eq_refl) as (a & b & -> & Ha & <-).
    exists (x :: a), b. repeat split; auto. intros [H|H]; [congruence|now apply Ha].
Qed.

Lemma find_char_None c s : find_char c s = None <-> without c s.
Proof.
  unfold without. induction s as [|x s IH]; simpl; [tauto|].
  destruct (char_eqb_spec x c) as [->|Hne].
  - split; [discriminate|intros H; exfalso; auto].
  - destruct (find_char c s); simpl.
    + split; [discriminate|]. intros H. assert (Some n = None); [|discriminate]. apply IH. tauto.
    + split; [|auto]. intros _ [H|H]; [auto|]. destruct IH as [IH _]. now apply IH.
Qed.

Lemma skipn_app_exact A (a b : list A) : skipn (List.length a) (a ++ b) = b.
Proof. rewrite skipn_app, skipn_all, Nat.sub_diag. reflexivity. Qed.

Lemma firstn_app_exact A (a b : list A) : firstn (List.length a) (a ++ b) = a.
Proof. rewrite firstn_app, firstn_all, Nat.sub_diag. simpl. apply app_nil_r. Qed.

Lemma char_in_In c s : char_in c s = true <-> In c s.
Proof.
  unfold char_in. rewrite existsb_exists. split.
  - intros (x & Hx & E). apply char_eqb_eq in E. now subst.
  - intros H. exists c. split; auto. apply char_eqb_refl.
Qed.

(** ** Ordering *)

Lemma str_cmp_refl a : str_cmp a a = Eq.
Proof. induction a as [|x a IH]; simpl; auto. now rewrite N.compare_refl. Qed.

Lemma str_cmp_eq a b : str_cmp a b = Eq <-> a = b.
Proof.
  split; [|intros ->; apply str_cmp_refl].
  revert b; induction a as [|x a IH]; intros [|y b]; simpl; try congruence.
  destruct (N.compare_spec (N_of_ascii x) (N_of_ascii y)) as [H|H|H]; try congruence.
  intros E. f_equal; auto. now apply N_of_ascii_inj.
Qed.

Lemma str_cmp_antisym a b : str_cmp b a = CompOpp (str_cmp a b).
Proof.
  revert b; induction a as [|x a IH]; intros [|y b]; simpl; auto.
  rewrite (N.compare_antisym (N_of_ascii x) (N_of_ascii y)).
  destruct (N.compare (N_of_ascii x) (N_of_ascii y)); simpl; auto.
Qed.

Lemma str_cmp_lt a b : str_cmp a b = Lt <-> str_lt a b.
Proof.
  split.
  - revert b; induction a as [|x a IH]; intros [|y b]; simpl; try congruence.
    + intros _. constructor.
    + destruct (N.compare_spec (N_of_ascii x) (N_of_ascii y)) as [H|H|H]; try congruence.
      * intros E. apply N_of_ascii_inj in H. subst y. apply lt_tail; auto.
      * intros _. now apply lt_head.
  - induction 1; simpl; auto.
    + now rewrite (proj2 (N.compare_lt_iff _ _) H).
    + now rewrite N.compare_refl.
Qed.

Lemma str_cmp_gt a b : str_cmp a b = Gt <-> str_lt b a.
Proof. rewrite <- str_cmp_lt, (str_cmp_antisym a b). destruct (str_cmp a b); simpl; split; congruence. Qed.

Lemma str_ltb_lt a b : str_ltb a b = true <-> str_lt a b.
Proof. unfold str_ltb. rewrite <- str_cmp_lt. destruct (str_cmp a b); split; congruence. Qed.

Lemma str_lt_irrefl a : ~ str_lt a a.
Proof. rewrite <- str_cmp_lt, str_cmp_refl. discriminate. Qed.

Lemma str_lt_trans a b c : str_lt a b -> str_lt b c -> str_lt a c.
Proof.
  intros H; revert c; induction H; intros c0 H2.
  - inversion H2; subst; constructor.
  - inversion H2; subst; constructor; lia.
  - inversion H2; subst; [now constructor|]. apply lt_tail; auto.
Qed.

Lemma str_lt_asym a b : str_lt a b -> ~ str_lt b a.
Proof. intros H1 H2. apply (@str_lt_irrefl a). eapply str_lt_trans; eauto. Qed.

Lemma str_lt_total a b : str_lt a b \/ a = b \/ str_lt b a.
Proof.
  destruct (str_cmp a b) eqn:E.
  - right; left; now apply str_cmp_eq.
  - left; now apply str_cmp_lt.
  - right; right; now apply str_cmp_gt.
Qed.

Lemma prefix_of_le a b : prefix_of a b -> a = b \/ str_lt a b.
Proof.
  intros [t ->]. induction a as [|x a IH]; simpl.
  - destruct t; [now left|right; constructor].
  - destruct IH as [IH|IH]; [left; congruence|right; now apply lt_tail].
Qed.

(** Strings between a prefix and an extension of it have the prefix too. *)
Lemma prefix_between p s t :
  prefix_of p t -> str_lt p s -> str_lt s t -> prefix_of p s.
Proof.
  revert s t; induction p as [|x p IH]; intros s t Hp H1 H2; [apply prefix_of_nil|].
  destruct Hp as [u ->]. destruct s as [|y s]; [inversion H1|].
  simpl in H2. inversion H1; subst; inversion H2; subst; try lia.
  destruct (IH s (p ++ u)) as [v ->]; auto.
  - exists u; auto.
  - exists v; auto.
Qed.

(** ** Ordered maps *)

Definition keys {V} (m : smap V) : list str := map fst m.

(** Keys strictly increasing. *)
Definition sm_sorted {V} (m : smap V) : Prop := StronglySorted str_lt (keys m).

Lemma sm_find_set_same V k (v : V) m : sm_find k (sm_set k v m) = Some v.
Proof.
  induction m as [|[k' v'] m IH]; simpl.
  - now rewrite str_eqb_refl.
  - destruct (str_cmp k k') eqn:E; simpl; rewrite ?str_eqb_refl; auto.
    destruct (str_eqb_spec k k') as [->|]; [rewrite str_cmp_refl in E; discriminate|auto].
Qed.

Lemma sm_find_set_other V k k' (v : V) m :
  k <> k' -> sm_find k (sm_set k' v m) = sm_find k m.
Proof.
  intros Hne. induction m as [|[k2 v2] m IH]; simpl.
  - destruct (str_eqb_spec k k'); congruence.
  - destruct (str_cmp k' k2) eqn:E; simpl.
    + apply str_cmp_eq in E. subst k2. destruct (str_eqb_spec k k'); congruence.
    + destruct (str_eqb_spec k k'); congruence.
    + destruct (str_eqb_spec k k2); congruence.
Qed.

Lemma sm_find_set V k k' (v : V) m :
  sm_find k (sm_set k' v m) = if str_eqb k k' then Some v else sm_find k m.
Proof.
  destruct (str_eqb_spec k k') as [->|H]; [apply sm_find_set_same|now apply sm_find_set_other].
Qed.

Lemma sm_set_keys V k (v : V) m x : In x (keys (sm_set k v m)) <-> x = k \/ In x (keys m).
Proof.
  unfold keys. induction m as [|[k' v'] m IH]; simpl; [intuition|].
  destruct (str_cmp k k') eqn:E; simpl.
  - apply str_cmp_eq in E. subst k'. intuition.
  - intuition.
  - rewrite IH. intuition.
Qed.

Lemma sm_set_sorted V k (v : V) m : sm_sorted m -> sm_sorted (sm_set k v m).
Proof.
  unfold sm_sorted. induction m as [|[k' v'] m IH]; simpl; intros H.
  - constructor; constructor.
  - inversion H as [|? ? Hs Hf]; subst.
    destruct (str_cmp k k') eqn:E; simpl.
    + apply str_cmp_eq in E. subst k'. now constructor.
    + apply str_cmp_lt in E. constructor; [auto|]. constructor; auto.
      rewrite Forall_forall in *. intros x Hx. eapply str_lt_trans; eauto.
    + apply str_cmp_gt in E. constructor; [auto|]. rewrite Forall_forall in *.
      intros x Hx. apply sm_set_keys in Hx. destruct Hx as [->|Hx]; auto.
Qed.

Lemma sm_find_In V k (m : smap V) : (exists v, sm_find k m = Some v) <-> In k (keys m).
Proof.
  unfold keys. induction m as [|[k' v'] m IH]; simpl.
  - split; [intros [v H]; discriminate|tauto].
  - destruct (str_eqb_spec k k') as [->|Hne].
    + split; [auto|eauto].
    + rewrite IH. split; [auto|intros [H|H]; congruence].
Qed.

Lemma sm_find_None V k (m : smap V) : sm_find k m = None <-> ~ In k (keys m).
Proof.
  rewrite <- sm_find_In. destruct (sm_find k m) as [v|]; split; try congruence.
  - intros H; exfalso; apply H; eauto.
  - intros _ [v H]; discriminate.
Qed.

Lemma sm_mem_find V k (m : smap V) : sm_mem k m = true <-> exists v, sm_find k m = Some v.
Proof. unfold sm_mem. destruct (sm_find k m); split; eauto; try discriminate. intros [v H]; discriminate. Qed.

Lemma sm_find_In_pair V k (v : V) m :
  sm_sorted m -> (sm_find k m = Some v <-> In (k, v) m).
Proof.
  unfold sm_sorted, keys. induction m as [|[k' v'] m IH]; simpl; intros Hs.
  - split; [discriminate|tauto].
  - inversion Hs as [|? ? Hs' Hf]; subst. destruct (str_eqb_spec k k') as [->|Hne].
    + split; [intros [= ->]; auto|]. intros [[= ->]|H]; auto.
      exfalso. rewrite Forall_forall in Hf. apply (@str_lt_irrefl k').
      apply Hf. change k' with (fst (k', v)). now apply in_map.
    + rewrite IH by auto. split; [auto|]. intros [[= -> ->]|H]; [congruence|auto].
Qed.

(** ** Ordered sets *)

Definition ss_sorted (s : sset) : Prop := StronglySorted str_lt s.

Lemma ss_insert_In k s x : In x (ss_insert k s) <-> x = k \/ In x s.
Proof.
  induction s as [|k' s IH]; simpl; [intuition|].
  destruct (str_cmp k k') eqn:E; simpl.
  - apply str_cmp_eq in E. subst. intuition.
  - intuition.
  - rewrite IH. intuition.
Qed.

Lemma ss_insert_sorted k s : ss_sorted s -> ss_sorted (ss_insert k s).
Proof.
  unfold ss_sorted. induction s as [|k' s IH]; simpl; intros H.
  - constructor; constructor.
  - inversion H as [|? ? Hs Hf]; subst.
    destruct (str_cmp k k') eqn:E; simpl; auto.
    + apply str_cmp_lt in E. constructor; [auto|]. constructor; auto.
      rewrite Forall_forall in *. intros x Hx. eapply str_lt_trans; eauto.
    + apply str_cmp_gt in E. constructor; [auto|]. rewrite Forall_forall in *.
      intros x Hx. apply ss_insert_In in Hx. destruct Hx as [->|Hx]; auto.
Qed.

Lemma ss_mem_In k s : ss_mem k s = true <-> In k s.
Proof.
  unfold ss_mem. rewrite existsb_exists. split.
  - intros (x & Hx & E). apply str_eqb_eq in E. now subst.
  - intros H. exists k. split; auto. apply str_eqb_refl.
Qed.

Lemma ss_mem_insert k x s : ss_mem x (ss_insert k s) = str_eqb x k || ss_mem x s.
Proof.
  apply eq_true_iff_eq. rewrite ss_mem_In, ss_insert_In, orb_true_iff, str_eqb_eq, ss_mem_In.
  reflexivity.
Qed.

Lemma ss_insert_all_In ks s x : In x (ss_insert_all ks s) <-> In x ks \/ In x s.
Proof.
  unfold ss_insert_all. revert s; induction ks as [|k ks IH]; intros s; simpl; [intuition|].
  rewrite IH, ss_insert_In. intuition.
Qed.

Lemma ss_insert_all_sorted ks s : ss_sorted s -> ss_sorted (ss_insert_all ks s).
Proof.
  unfold ss_insert_all. revert s; induction ks as [|k ks IH]; intros s H; simpl; auto.
  apply IH. now apply ss_insert_sorted.
Qed.

(** [lower_bound] splits a sorted set into the elements below [k] and the others. *)
Lemma ss_lower_bound_aux_spec before k s :
  ss_sorted s ->
  exists lo hi, ss_lower_bound_aux before k s = (rev lo ++ before, hi) /\ s = lo ++ hi
    /\ Forall (fun x => str_lt x k) lo /\ Forall (fun x => ~ str_lt x k) hi.
Proof.
  revert before; induction s as [|k' s IH]; intros before Hs; simpl.
  - exists [], []. repeat split; auto.
  - inversion Hs as [|? ? Hs' Hf]; subst.
    destruct (str_ltb k' k) eqn:E.
    + apply str_ltb_lt in E. destruct (IH (k' :: before)) as (lo & hi & H1 & H2 & H3 & H4); auto.
      exists (k' :: lo), hi. rewrite H1. simpl. rewrite <- app_assoc. simpl.
      repeat split; auto. now rewrite H2.
    + exists [], (k' :: s). repeat split; auto.
      assert (Hk : ~ str_lt k' k) by (rewrite <- str_ltb_lt; congruence).
      constructor; auto. rewrite Forall_forall in *. intros x Hx Hlt.
      apply Hk. eapply str_lt_trans; eauto.
Qed.

Lemma ss_lower_bound_spec k s :
  ss_sorted s ->
  exists lo hi, ss_lower_bound k s = (rev lo, hi) /\ s = lo ++ hi
    /\ Forall (fun x => str_lt x k) lo /\ Forall (fun x => ~ str_lt x k) hi.
Proof.
  intros H. destruct (ss_lower_bound_aux_spec [] k H) as (lo & hi & H1 & H2).
  exists lo, hi. rewrite app_nil_r in H1. auto.
Qed.

(** ** Case folding *)

Lemma lower_ascii_spec c : lower_of c (lower_ascii c).
Proof.
  unfold lower_of, is_upper, lower_ascii.
  destruct (N.leb_spec 65 (N_of_ascii c)), (N.leb_spec (N_of_ascii c) 90); simpl.
  - left. split; [lia|]. apply N_ascii_embedding. lia.
  - right. split; [lia|auto].
  - right. split; [lia|auto].
  - right. split; [lia|auto].
Qed.

Lemma lower_of_fun c d : lower_of c d <-> d = lower_ascii c.
Proof.
  split; [|intros ->; apply lower_ascii_spec].
  intros H. pose proof (lower_ascii_spec c) as H'.
  unfold lower_of, is_upper in *. destruct H as [[H1 H2]|[H1 H2]], H' as [[H3 H4]|[H3 H4]]; try lia.
  - apply N_of_ascii_inj. lia.
  - congruence.
Qed.

Lemma lowered_map s t : lowered s t <-> t = map lower_ascii s.
Proof.
  unfold lowered. split.
  - induction 1; simpl; auto. apply lower_of_fun in H. congruence.
  - intros ->. induction s; simpl; constructor; auto. apply lower_ascii_spec.
Qed.

Lemma same_up_to_case_map s t :
  same_up_to_case s t <-> map lower_ascii s = map lower_ascii t.
Proof.
  unfold same_up_to_case. split.
  - intros (u & H1 & H2). apply lowered_map in H1, H2. congruence.
  - intros H. exists (map lower_ascii s). split; apply lowered_map; auto.
Qed.

Lemma lower_ascii_idem c : lower_ascii (lower_ascii c) = lower_ascii c.
Proof.
  pose proof (lower_ascii_spec c) as H. unfold lower_of, is_upper in H.
  unfold lower_ascii at 1.
  destruct (N.leb_spec 65 (N_of_ascii (lower_ascii c))),
    (N.leb_spec (N_of_ascii (lower_ascii c)) 90); simpl; auto.
  destruct H as [[Ha Hb]|[Ha Hb]]; [lia|]. rewrite Hb in *. lia.
Qed.

Lemma lower_ascii_lt128 c : (N_of_ascii c < 128)%N -> (N_of_ascii (lower_ascii c) < 128)%N.
Proof.
  pose proof (lower_ascii_spec c) as H. unfold lower_of, is_upper in H.
  intros Hc. destruct H as [[H1 H2]|[H1 H2]]; [lia|]. now rewrite H2.
Qed.

Lemma mapM_tolower_ascii s : ascii7 s -> mapM tolower_char s = Ok (map lower_ascii s).
Proof.
  unfold ascii7, ascii7_char. induction 1 as [|c s Hc Hs IH]; simpl; auto.
  unfold tolower_char at 1. apply N.ltb_lt in Hc. rewrite Hc. simpl. now rewrite IH.
Qed.

Lemma mapM_tolower_not_ascii s : ~ ascii7 s -> mapM tolower_char s = Undef UB_ctype.
Proof.
  unfold ascii7. induction s as [|c s IH]; intros H; simpl.
  - exfalso; apply H; constructor.
  - unfold tolower_char at 1. destruct (N.ltb_spec (N_of_ascii c) 128) as [Hc|Hc]; simpl; [|auto].
    rewrite IH; [auto|]. intros Hs. apply H. constructor; auto.
Qed.

Lemma ascii7_dec s : {ascii7 s} + {~ ascii7 s}.
Proof.
  unfold ascii7. apply Forall_dec. intros c. unfold ascii7_char.
  destruct (N_of_ascii c <? 128)%N eqn:E; [left|right].
  - now apply N.ltb_lt.
  - apply N.ltb_ge in E. lia.
Defined.

Lemma mapM_tolower_cases s :
  (ascii7 s /\ mapM tolower_char s = Ok (map lower_ascii s))
  \/ (~ ascii7 s /\ mapM tolower_char s = Undef UB_ctype).
Proof.
  destruct (ascii7_dec s); [left|right]; split; auto using mapM_tolower_ascii, mapM_tolower_not_ascii.
Qed.

Lemma lower_ascii_not_upper c : ~ is_upper c -> lower_ascii c = c.
Proof.
  intros H. destruct (lower_ascii_spec c) as [[Hu _]|[_ Hu]]; [contradiction|auto].
Qed.

(** ** Outcomes *)

Local Ltac bind_tac :=
  match goal with
  | |- bind ?x _ = _ <-> _ =>
      destruct x; simpl; split; intro Hb;
      try discriminate; try (left; assumption); try (right; eexists; split; [reflexivity|assumption]);
      try (eexists; split; [reflexivity|assumption]);
      repeat match goal with
      | H : _ \/ _ |- _ => destruct H
      | H : exists _, _ |- _ => destruct H
      | H : _ /\ _ |- _ => destruct H
      end; try discriminate; try congruence
  end.

Lemma bind_Ok A B (x : outcome A) (f : A -> outcome B) b :
  bind x f = Ok b <-> exists a, x = Ok a /\ f a = Ok b.
Proof. bind_tac. Qed.

Lemma bind_Throw A B (x : outcome A) (f : A -> outcome B) e :
  bind x f = Throw e <-> x = Throw e \/ exists a, x = Ok a /\ f a = Throw e.
Proof. bind_tac. left; congruence. Qed.

Lemma bind_Undef A B (x : outcome A) (f : A -> outcome B) u :
  bind x f = Undef u <-> x = Undef u \/ exists a, x = Ok a /\ f a = Undef u.
Proof. bind_tac. left; congruence. Qed.

Lemma bind_NoFuel A B (x : outcome A) (f : A -> outcome B) :
  bind x f = NoFuel <-> x = NoFuel \/ exists a, x = Ok a /\ f a = NoFuel.
Proof. bind_tac. now left. Qed.

Lemma with_context_Ok A n t s (x : outcome A) a : with_context n t s x = Ok a <-> x = Ok a.
Proof. destruct x; simpl; split; congruence. Qed.

Lemma with_context_Undef A n t s (x : outcome A) u : with_context n t s x = Undef u <-> x = Undef u.
Proof. destruct x; simpl; split; congruence. Qed.

Lemma with_context_NoFuel A n t s (x : outcome A) : with_context n t s x = NoFuel <-> x = NoFuel.
Proof. destruct x; simpl; split; congruence. Qed.

Lemma last_char_app s c : last_char (s ++ [c]) = Ok c.
Proof. unfold last_char. now rewrite rev_app_distr. Qed.

Lemma last_char_nonempty s : s <> [] -> exists t c, s = t ++ [c] /\ last_char s = Ok c.
Proof.
  intros H. destruct (exists_last H) as (t & c & ->). exists t, c. split; auto. apply last_char_app.
Qed.
