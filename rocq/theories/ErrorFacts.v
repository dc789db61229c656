(** Facts about error messages. *)

From Coq Require Import List Ascii String NArith ZArith Bool Arith Lia Sorted.
From Verif Require Import Base Errors Spec BaseFacts SpecErrors.
Import ListNotations.

(** ** Searching *)

Lemma find_sub_contains p s : (exists n, find_sub p s = Some n) <-> contains p s.
Proof.
  split.
  - intros [n H]. revert n H. induction s as [|c s IH]; intros n H; cbn [find_sub] in H.
    + destruct (starts_with p []) eqn:E; [|discriminate]. apply starts_with_prefix in E. destruct E as [t Et]. now exists [], t.
    + destruct (starts_with p (c :: s)) eqn:E.
      * apply starts_with_prefix in E. destruct E as [t Et]. now exists [], t.
      * destruct (find_sub p s) as [m|]; [|discriminate]. destruct (IH m eq_refl) as (a & b & ->). now exists (c :: a), b.
  - intros (a & b & ->). induction a as [|c a [n IH]]; cbn [app find_sub].
    + exists 0. assert (E : starts_with p (p ++ b) = true) by (apply starts_with_prefix; now exists b).
      destruct (p ++ b); cbn [find_sub]; now rewrite E.
    + destruct (starts_with p (c :: a ++ p ++ b)); eauto. rewrite IH. cbn. eauto.
Qed.

Lemma find_sub_None p s : find_sub p s = None <-> ~ contains p s.
Proof.
  rewrite <- find_sub_contains. destruct (find_sub p s) as [n|]; split; intros H; auto; try discriminate.
  - contradiction H. eauto.
  - intros [n Hn]. discriminate.
Qed.

Lemma starts_with_cut q p a b : without q p -> starts_with p (a ++ q :: b) = starts_with p a.
Proof.
  revert a. induction p as [|x p IH]; intros a Hp; [now destruct a|]. destruct a as [|y a]; cbn [app starts_with].
  - destruct (char_eqb_spec x q) as [->|]; auto. contradiction Hp. now left.
  - rewrite IH; auto. intros Hi. apply Hp. now right.
Qed.

Lemma find_cut q p a b : without q p -> p <> [] ->
  find_sub p (a ++ q :: b)
  = match find_sub p a with Some i => Some i | None => option_map (fun n => List.length a + 1 + n) (find_sub p b) end.
Proof.
  intros Hp Hne. induction a as [|c a IH]; cbn [app].
  - cbn [find_sub]. rewrite (starts_with_cut q p [] b Hp : starts_with p (q :: b) = _). destruct (starts_with p []); auto.
  - cbn [find_sub]. rewrite (starts_with_cut q p (c :: a) b Hp : starts_with p (c :: a ++ q :: b) = _).
    destruct (starts_with p (c :: a)); auto. rewrite IH. destruct (find_sub p a); auto.
    cbn [option_map]. destruct (find_sub p b); auto.
Qed.

(** ** Messages with placeholders *)

(** A piece of the message between two quotes: an optional placeholder and a text. *)
Definition seg : Type := option str * str.
Definition rend1 (g : seg) : str := match fst g with Some k => placeholder k ++ snd g | None => snd g end.
Definition pre (gs : list seg) : str := List.concat (map (fun g => rend1 g ++ $"'") gs).
Definition post (gs : list seg) : str := List.concat (map (fun g => $"'" ++ rend1 g) gs).
Definition render (gs : list seg) : str := match gs with [] => [] | g :: gs' => rend1 g ++ post gs' end.

Lemma render_cons g gs : gs <> [] -> render (g :: gs) = rend1 g ++ "'"%char :: render gs.
Proof. destruct gs as [|h gs]; [contradiction|]. intros _. cbn [render post map List.concat]. now rewrite <- app_assoc. Qed.

Lemma render_split l1 g l2 : render (l1 ++ g :: l2) = pre l1 ++ rend1 g ++ post l2.
Proof.
  induction l1 as [|h l1 IH]; [reflexivity|]. change ((h :: l1) ++ g :: l2) with (h :: (l1 ++ g :: l2)). rewrite render_cons by now destruct l1.
  rewrite IH. unfold pre. cbn [map List.concat]. now rewrite <- !app_assoc.
Qed.

Section Names.
Variable K : list str.

Definition good_name (k : str) : Prop := without "%"%char k /\ without "'"%char k.
Hypothesis K_good : Forall good_name K.

Definition quiet (s : str) : Prop := forall k, In k K -> ~ contains (placeholder k) s.
Definition clean (g : seg) : Prop :=
  match fst g with Some k => good_name k /\ without "%"%char (snd g) | None => quiet (snd g) end.

Lemma contains_In p s x : contains p s -> In x p -> In x s.
Proof. intros (a & b & ->) H. rewrite !in_app_iff. auto. Qed.

Lemma without_quiet s : without "%"%char s -> quiet s.
Proof. intros H k _ Hc. apply H. apply (contains_In _ _ _ Hc). now left. Qed.

Lemma placeholder_quote k : good_name k -> without "'"%char (placeholder k).
Proof.
  intros [_ H] Hi. unfold placeholder in Hi. rewrite !in_app_iff in Hi. cbn in Hi.
  destruct Hi as [[Hi|[]]|[Hi|[Hi|[]]]]; try discriminate. contradiction.
Qed.

Lemma starts_hole k k' s : good_name k -> good_name k' ->
  starts_with (placeholder k) (placeholder k' ++ s) = str_eqb k k'.
Proof.
  intros [H _] [H' _]. unfold placeholder. cbn. rewrite char_eqb_refl. cbn [andb].
  revert k' H'. induction k as [|x k IH]; intros [|x' k'] H'; cbn [app starts_with str_eqb].
  - cbn. now rewrite char_eqb_refl.
  - cbn. destruct (char_eqb_spec "%"%char x') as [<-|]; auto. contradiction H'. now left.
  - destruct (char_eqb_spec x "%"%char) as [->|]; auto. contradiction H. now left.
  - rewrite <- (IH (fun Hi => H (or_intror Hi)) k' (fun Hi => H' (or_intror Hi))). reflexivity.
Qed.

Lemma find_hole_other k a b : without "%"%char a -> without "%"%char b ->
  find_sub (placeholder k) (a ++ "%"%char :: b) = None.
Proof.
  intros Ha Hb. apply find_sub_None. intros (x & y & E).
  assert (Hc : forall l, count_occ ascii_dec l "%"%char = 0 <-> without "%"%char l) by (intros l; symmetry; apply count_occ_not_In).
  apply Hc in Ha, Hb. apply (f_equal (fun l => count_occ ascii_dec l "%"%char)) in E.
  unfold placeholder in E. rewrite !count_occ_app in E. cbn in E. rewrite Ha, Hb in E. lia.
Qed.

Lemma find_sub_skip k a s : without "%"%char a ->
  find_sub (placeholder k) (a ++ s) = option_map (fun n => List.length a + n) (find_sub (placeholder k) s).
Proof.
  induction a as [|c a IH]; intros Ha; cbn [app List.length].
  - now destruct (find_sub (placeholder k) s).
  - cbn [find_sub]. assert (E : starts_with (placeholder k) (c :: a ++ s) = false).
    { cbn. destruct (char_eqb_spec "%"%char c) as [<-|]; auto. contradiction Ha. now left. }
    rewrite E, IH by (intros Hi; apply Ha; now right). now destruct (find_sub (placeholder k) s).
Qed.

Lemma seg_find g k : clean g -> In k K ->
  find_sub (placeholder k) (rend1 g)
  = match fst g with Some k' => if str_eqb k k' then Some 0 else None | None => None end.
Proof.
  intros Hg Hk. assert (Gk : good_name k) by now apply (proj1 (Forall_forall _ _) K_good).
  unfold rend1, clean in *. destruct g as [[k'|] s]; cbn [fst snd] in *.
  - destruct Hg as [Gk' Hs]. pose proof (starts_hole k k' s Gk Gk') as E. destruct (str_eqb k k') eqn:Ek.
    + destruct (placeholder k' ++ s); cbn [find_sub]; now rewrite E.
    + change (placeholder k' ++ s) with ("%"%char :: (k' ++ $"%") ++ s) in *. rewrite <- app_assoc in *.
      cbn [find_sub]. rewrite E. change ($"%" ++ s) with ("%"%char :: s). rewrite find_hole_other; auto. apply Gk'.
  - apply find_sub_None. auto.
Qed.

Definition is_hole (k : str) (g : seg) : bool := match fst g with Some k' => str_eqb k k' | None => false end.

Lemma render_find_none k gs : Forall clean gs -> In k K -> (forall g, In g gs -> is_hole k g = false) ->
  find_sub (placeholder k) (render gs) = None.
Proof.
  intros Hc Hk Hn. assert (Gk : good_name k) by now apply (proj1 (Forall_forall _ _) K_good).
  induction Hc as [|g gs Hg Hgs IH]; [reflexivity|].
  assert (E : find_sub (placeholder k) (rend1 g) = None).
  { rewrite (seg_find g k Hg Hk). specialize (Hn g (or_introl eq_refl)). unfold is_hole in Hn.
    destruct (fst g) as [k'|]; auto. now rewrite Hn. }
  destruct gs as [|h gs].
  - cbn [render post map List.concat]. now rewrite app_nil_r.
  - rewrite render_cons by discriminate. cbn [app]. rewrite find_cut, E, IH; auto.
    + intros x Hx. apply Hn. now right.
    + now apply placeholder_quote.
    + discriminate.
Qed.

Lemma render_find_some k l1 s l2 : Forall clean (l1 ++ (Some k, s) :: l2) -> In k K ->
  (forall g, In g l1 -> is_hole k g = false) ->
  find_sub (placeholder k) (render (l1 ++ (Some k, s) :: l2)) = Some (List.length (pre l1)).
Proof.
  intros Hc Hk Hn. assert (Gk : good_name k) by now apply (proj1 (Forall_forall _ _) K_good).
  induction l1 as [|g l1 IH]; cbn [app] in *.
  - cbn [pre map List.concat List.length]. inversion Hc as [|? ? Hg Hgs]; subst.
    pose proof (seg_find _ k Hg Hk) as E. cbn [fst] in E. rewrite str_eqb_refl in E.
    destruct l2 as [|h l2]; [cbn [render post map List.concat]; now rewrite app_nil_r|].
    rewrite render_cons by discriminate. cbn [app]. rewrite find_cut, E; auto.
    + now apply placeholder_quote.
    + discriminate.
  - inversion Hc as [|? ? Hg Hgs]; subst. rewrite render_cons by now destruct l1. cbn [app].
    pose proof (seg_find _ k Hg Hk) as E. specialize (Hn g (or_introl eq_refl)) as Hh. unfold is_hole in Hh.
    assert (E' : find_sub (placeholder k) (rend1 g) = None) by (rewrite E; destruct (fst g); auto; now rewrite Hh).
    rewrite find_cut, E', IH; auto.
    + unfold pre. cbn [map List.concat option_map]. rewrite !app_length. reflexivity.
    + intros x Hx. apply Hn. now right.
    + now apply placeholder_quote.
    + discriminate.
Qed.

(** One substitution. *)
Definition fill1 (k v : str) (g : seg) : seg := if is_hole k g then (None, v ++ snd g) else g.
Definition holes (k : str) (gs : list seg) : nat := List.length (filter (is_hole k) gs).

Lemma is_hole_true k g : is_hole k g = true -> g = (Some k, snd g).
Proof.
  unfold is_hole. destruct g as [[k'|] s]; cbn; [|discriminate]. intros H. apply str_eqb_eq in H. now subst.
Qed.

Lemma first_hole k gs : holes k gs <> 0 ->
  exists l1 s l2, gs = l1 ++ (Some k, s) :: l2 /\ (forall g, In g l1 -> is_hole k g = false).
Proof.
  induction gs as [|g gs IH]; unfold holes; cbn [filter List.length]; [contradiction|].
  destruct (is_hole k g) eqn:E.
  - intros _. apply is_hole_true in E. exists [], (snd g), gs. rewrite E at 1. split; [reflexivity|]. intros x [].
  - intros H. destruct (IH H) as (l1 & s & l2 & -> & Hl). exists (g :: l1), s, l2. split; auto.
    intros x [<-|Hx]; auto.
Qed.

Lemma fill_no_hole k v gs : (forall g, In g gs -> is_hole k g = false) -> map (fill1 k v) gs = gs.
Proof.
  intros H. rewrite <- (map_id gs) at 2. apply map_ext_in. intros g Hg. unfold fill1. now rewrite H.
Qed.

Lemma replace_render n : forall k v gs fuel, holes k gs = n -> n < fuel -> Forall clean gs -> In k K ->
  (forall s, In (Some k, s) gs -> quiet (v ++ s)) ->
  replace_token fuel (placeholder k) v (render gs) = Ok (render (map (fill1 k v) gs))
  /\ Forall clean (map (fill1 k v) gs).
Proof.
  induction n as [|n IH]; intros k v gs fuel Hn Hf Hc Hk Hq; (destruct fuel as [|fuel]; [lia|]); cbn [replace_token].
  - assert (H : forall g, In g gs -> is_hole k g = false).
    { intros g Hg. destruct (is_hole k g) eqn:E; auto. exfalso. unfold holes in Hn.
      assert (Hi : In g (filter (is_hole k) gs)) by now apply filter_In.
      destruct (filter (is_hole k) gs); [contradiction|discriminate]. }
    rewrite render_find_none, fill_no_hole by auto. auto.
  - destruct (first_hole k gs) as (l1 & s & l2 & -> & Hl); [lia|].
    rewrite render_find_some by auto.
    assert (Q : quiet (v ++ s)) by (apply Hq; rewrite in_app_iff; right; now left).
    assert (E : firstn (List.length (pre l1)) (render (l1 ++ (Some k, s) :: l2))
                ++ v ++ skipn (List.length (pre l1) + List.length (placeholder k)) (render (l1 ++ (Some k, s) :: l2))
                = render (l1 ++ (None, v ++ s) :: l2)).
    { rewrite !render_split. rewrite firstn_app_exact, <- app_length. unfold rend1. cbn [fst snd].
      rewrite <- !app_assoc, (app_assoc (pre l1) (placeholder k)), skipn_app_exact. reflexivity. }
    rewrite E.
    assert (Hc' : Forall clean (l1 ++ (None, v ++ s) :: l2)).
    { apply Forall_app in Hc. destruct Hc as [H1 H2]. apply Forall_app. split; auto. inversion H2; subst. constructor; auto. }
    assert (Hn' : holes k (l1 ++ (None, v ++ s) :: l2) = n).
    { unfold holes in *. rewrite filter_app in *. cbn [filter is_hole fst] in *. rewrite str_eqb_refl in Hn.
      rewrite app_length in *. cbn [List.length] in Hn. lia. }
    destruct (IH k v _ fuel Hn' ltac:(lia) Hc' Hk) as [R1 R2].
    { intros s' Hs'. apply Hq. rewrite in_app_iff in *. destruct Hs' as [|[H|H]]; auto; [discriminate|]. right. now right. }
    assert (Ef : map (fill1 k v) (l1 ++ (None, v ++ s) :: l2) = map (fill1 k v) (l1 ++ (Some k, s) :: l2)).
    { rewrite !map_app. cbn [map]. unfold fill1 at 2 5. cbn [is_hole fst snd]. now rewrite str_eqb_refl. }
    rewrite <- Ef. auto.
Qed.

(** All substitutions. *)
Fixpoint fill_all (ss : smap str) (gs : list seg) : list seg :=
  match ss with [] => gs | (k, v) :: ss' => fill_all ss' (map (fill1 k v) gs) end.

Definition filled (ss : smap str) (g : seg) : seg :=
  match fst g with
  | Some k => match sm_find k ss with Some v => (None, v ++ snd g) | None => g end
  | None => g
  end.

Lemma fill_all_map ss : forall gs, fill_all ss gs = map (filled ss) gs.
Proof.
  induction ss as [|[k v] ss IH]; intros gs; cbn [fill_all].
  - rewrite <- (map_id gs) at 1. apply map_ext. intros [[k|] s]; reflexivity.
  - rewrite IH, map_map. apply map_ext. intros [[k'|] s]; unfold fill1, filled; cbn [is_hole fst snd sm_find]; auto.
    destruct (str_eqb_spec k k') as [->|Hne].
    + cbn [fst]. now rewrite str_eqb_refl.
    + cbn [fst snd]. destruct (str_eqb_spec k' k); [congruence|]. reflexivity.
Qed.

Lemma holes_le k gs : holes k gs <= List.length gs.
Proof. unfold holes. induction gs as [|g gs IH]; cbn [filter]; [auto|]. destruct (is_hole k g); cbn [List.length]; lia. Qed.

Lemma substitutions_render fuel ss : forall gs,
  List.length gs < fuel -> Forall clean gs -> incl (map fst ss) K ->
  (forall k v s, sm_find k ss = Some v -> In (Some k, s) gs -> quiet (v ++ s)) ->
  apply_substitutions fuel ss (render gs) = Ok (render (map (filled ss) gs)).
Proof.
  intros gs. rewrite <- fill_all_map. revert gs. induction ss as [|[k v] ss IH]; intros gs Hf Hc Hk Hq; [reflexivity|].
  cbn [apply_substitutions fill_all].
  destruct (replace_render (holes k gs) k v gs fuel eq_refl) as [R1 R2]; auto.
  - pose proof (holes_le k gs). lia.
  - apply Hk. now left.
  - intros s Hs. apply (Hq k v s); auto. cbn [sm_find]. now rewrite str_eqb_refl.
  - change ([c_percent] ++ k ++ [c_percent]) with (placeholder k). rewrite R1. cbn [bind]. apply IH; auto.
    + now rewrite map_length.
    + intros x Hx. apply Hk. now right.
    + intros k' v' s Hi Hs. apply in_map_iff in Hs. destruct Hs as (g & Eg & Hg).
      unfold fill1 in Eg. destruct (is_hole k g) eqn:E; [discriminate|]. subst g. apply (Hq k' v' s); auto.
      unfold is_hole in E. cbn in E. cbn [sm_find]. rewrite str_eqb_sym in E. now rewrite E.
Qed.

End Names.

(** ** Names and prefixes *)

Lemma stripped_fun text s : stripped text s -> strip_prefixes text = s.
Proof.
  unfold strip_prefixes. intros [p c t Hp Hc|t Ht].
  - assert (E : find_first_not_of $"-/" (p ++ c :: t) = Some (List.length p)).
    { induction Hp as [|x p Hx _ IH]; cbn [app find_first_not_of List.length].
      - destruct (char_in c $"-/") eqn:E; auto. apply char_in_In in E. contradiction Hc. cbn in E. unfold dash_or_slash. intuition.
      - assert (Ex : char_in x $"-/" = true) by (apply char_in_In; cbn; unfold dash_or_slash in Hx; intuition).
        now rewrite Ex, IH. }
    rewrite E. apply skipn_app_exact.
  - assert (E : find_first_not_of $"-/" t = None).
    { induction Ht as [|x p Hx _ IH]; cbn [find_first_not_of]; auto.
      assert (Ex : char_in x $"-/" = true) by (apply char_in_In; cbn; unfold dash_or_slash in Hx; intuition).
      now rewrite Ex, IH. }
    now rewrite E.
Qed.

Lemma dash_or_slash_dec c : dash_or_slash c \/ ~ dash_or_slash c.
Proof. unfold dash_or_slash. destruct (ascii_dec c "-"), (ascii_dec c "/"); tauto. Qed.

Lemma stripped_exists text : exists s, stripped text s.
Proof.
  assert (H : Forall dash_or_slash text \/ exists p c s, text = p ++ c :: s /\ Forall dash_or_slash p /\ ~ dash_or_slash c).
  { induction text as [|x text IH]; [left; constructor|]. destruct (dash_or_slash_dec x) as [Hx|Hx].
    - destruct IH as [IH|(p & c & s & -> & Hp & Hc)]; [left; now constructor|right].
      exists (x :: p), c, s. split; [reflexivity|]. split; [now constructor|auto].
    - right. exists [], x, text. split; [reflexivity|]. split; [constructor|auto]. }
  destruct H as [H|(p & c & s & -> & Hp & Hc)]; eexists; [now apply stripped_all|now apply stripped_some].
Qed.

Lemma prefix_fun style p : style_prefix style p -> canonical_prefix style = Ok p.
Proof. now intros []. Qed.

Lemma name_fun e o t name :
  detail e $"option" = Some o -> detail e $"original_token" = Some t ->
  shown_name (ex_style e) o t name -> canonical_option_name e = Ok name.
Proof.
  intros Ho Ht H. unfold canonical_option_name, subst_get. unfold detail in Ho, Ht. rewrite Ho, Ht. cbn [bind].
  destruct H as [->|p o' Hne Hs Hp Ho'|p c t' Hne Hs Hp Ht'|o' Hne Hs -> Ho'|o' Hne Hs Ho'].
  - reflexivity.
  - apply is_empty_false in Hne. rewrite Hne. cbv zeta. rewrite (stripped_fun _ _ Ho').
    rewrite (prefix_fun _ _ Hp). cbn [bind].
    destruct Hs as [->| ->]; reflexivity.
  - apply is_empty_false in Hne. rewrite Hne. cbv zeta. rewrite (stripped_fun _ _ Ht'), (prefix_fun _ _ Hp). cbn [bind].
    destruct Hs as [->| ->]; reflexivity.
  - apply is_empty_false in Hne. rewrite Hne. cbv zeta. rewrite (stripped_fun _ _ Ho').
    destruct Hs as [->| ->]; reflexivity.
  - apply is_empty_false in Hne. rewrite Hne. cbv zeta. rewrite (stripped_fun _ _ Ho'), Hs. cbn [orb Z.eqb allow_long allow_long_disguise].
    now destruct (strip_prefixes t).
Qed.

Lemma style_prefix_exists e : presentable e -> exists p, style_prefix (ex_style e) p.
Proof.
  intros [H _ _ _ _ _]. cbn in H. destruct H as [H|[H|[H|[H|[H|[]]]]]]; rewrite <- H; eexists; constructor.
Qed.

Lemma stripped_nil_inv text : stripped text [] -> text = [].
Proof. intros H. inversion H; auto. Qed.

Lemma shown_name_exists e o t : presentable e -> exists name, shown_name (ex_style e) o t name.
Proof.
  intros P. destruct (style_prefix_exists e P) as [p Hp]. destruct o as [|x o]; [eexists; now apply sn_written|].
  assert (Hne : x :: o <> []) by discriminate. destruct (stripped_exists (x :: o)) as [o' Ho].
  destruct P as [H _ _ _ _ _]. cbn in H.
  assert (Hcases : ex_style e = 0%Z \/ long_style (ex_style e) \/ short_style (ex_style e))
    by (unfold long_style, short_style; intuition).
  destruct Hcases as [Hs|[Hs|Hs]].
  - eexists. eapply sn_plain; eauto.
  - eexists. eapply sn_long; eauto.
  - destruct (stripped_exists t) as [t' Ht]. destruct t' as [|c t'].
    + apply stripped_nil_inv in Ht. eexists. eapply sn_no_token; eauto.
    + eexists. eapply sn_letter; eauto.
Qed.

(** ** Concrete templates *)

(** Cut a text at the quotes. *)
Definition no_percent (s : str) : bool := negb (char_in "%"%char s).
Definition seg_of (s : str) : seg :=
  match s, rev s with
  | b :: _, e :: _ =>
      let k := removelast (tl s) in
      if char_eqb b "%"%char && char_eqb e "%"%char && (1 <? List.length s) && no_percent k then (Some k, []) else (None, s)
  | _, _ => (None, s)
  end.
Fixpoint cut (cur : str) (s : str) : list seg :=
  match s with
  | [] => [seg_of (rev cur)]
  | c :: s' => if char_eqb c "'"%char then seg_of (rev cur) :: cut [] s' else cut (c :: cur) s'
  end.

Definition clean_b (g : seg) : bool :=
  match fst g with Some k => no_percent k && negb (char_in "'"%char k) && no_percent (snd g) | None => no_percent (snd g) end.

Lemma no_percent_iff s : no_percent s = true <-> without "%"%char s.
Proof. unfold no_percent, without. rewrite negb_true_iff, <- not_true_iff_false, char_in_In. tauto. Qed.

Lemma clean_b_clean K g : clean_b g = true -> clean K g.
Proof.
  unfold clean_b, clean. destruct (fst g) as [k|].
  - rewrite !andb_true_iff, !no_percent_iff, negb_true_iff, <- not_true_iff_false, char_in_In. unfold good_name, without. tauto.
  - rewrite no_percent_iff. apply without_quiet.
Qed.

Lemma clean_b_all K gs : forallb clean_b gs = true -> Forall (clean K) gs.
Proof. rewrite forallb_forall, Forall_forall. intros H g Hg. apply clean_b_clean. auto. Qed.

(** The default replacements, given what is missing. *)
Definition flag_defaults (fuel : nat) (no_name no_prefix no_value : bool) (msg : str) : outcome str :=
  let* m1 := if no_name then replace_token fuel $"option '%canonical_option%'" $"option" msg else Ok msg in
  let* m2 := if no_prefix then replace_token fuel $"%prefix%" [] m1 else Ok m1 in
  if no_value then replace_token fuel $"argument ('%value%')" $"argument" m2 else Ok m2.

Definition missing_value (e : exn) : bool :=
  match detail e $"value" with None => true | Some v => is_empty v end.

Definition full_subst (e : exn) (name p : str) : smap str :=
  sm_set $"prefix" p (sm_set $"canonical_option" name (ex_subst e)).

Lemma full_name e name p : sm_find $"canonical_option" (full_subst e name p) = Some name.
Proof. unfold full_subst. rewrite sm_find_set_other by discriminate. apply sm_find_set_same. Qed.
Lemma full_prefix e name p : sm_find $"prefix" (full_subst e name p) = Some p.
Proof. apply sm_find_set_same. Qed.
Lemma full_other e name p k : k <> $"prefix" -> k <> $"canonical_option" -> sm_find k (full_subst e name p) = detail e k.
Proof. intros H1 H2. unfold full_subst. rewrite !sm_find_set_other by auto. reflexivity. Qed.

Lemma bind_ok_r A (x : outcome A) : bind x (fun y => Ok y) = x.
Proof. now destruct x. Qed.

Lemma defaults_flags fuel e name p msg :
  apply_defaults fuel substitution_defaults (full_subst e name p) msg
  = flag_defaults fuel (is_empty name) (is_empty p) (missing_value e) msg.
Proof.
  unfold substitution_defaults, flag_defaults. cbn [apply_defaults].
  rewrite full_name, full_prefix, full_other by discriminate. cbv zeta. fold (missing_value e).
  destruct (if is_empty name then _ else _) as [m1| | |]; auto. cbn [bind].
  destruct (if is_empty p then _ else _) as [m2| | |]; auto. cbn [bind].
  destruct (missing_value e); auto. apply bind_ok_r.
Qed.

Lemma full_keys e name p k : In k (map fst (full_subst e name p)) <-> In k (parameters e).
Proof.
  unfold full_subst, parameters. fold (keys (sm_set $"prefix" p (sm_set $"canonical_option" name (ex_subst e)))).
  rewrite !sm_set_keys. unfold keys. cbn [In]. split; intros; intuition.
Qed.

Lemma full_good e name p : presentable e -> Forall good_name (map fst (full_subst e name p)).
Proof.
  intros P. apply Forall_forall. intros k Hk. apply full_keys in Hk. destruct Hk as [<-|[<-|Hk]].
  - split; intros H; cbn in H; intuition discriminate.
  - split; intros H; cbn in H; intuition discriminate.
  - pose proof (pr_names e P) as H. rewrite Forall_forall in H. apply H. exact Hk.
Qed.

Lemma inert_quiet e name p s : inert e s -> quiet (map fst (full_subst e name p)) s.
Proof. intros H k Hk. apply H. now apply (full_keys e name p). Qed.

(** The second loop. *)
Lemma substitutions_done e name p gs fuel :
  presentable e -> List.length gs < fuel ->
  Forall (clean (map fst (full_subst e name p))) gs ->
  (forall k v s, sm_find k (full_subst e name p) = Some v -> In (Some k, s) gs -> inert e (v ++ s)) ->
  apply_substitutions fuel (full_subst e name p) (render gs) = Ok (render (map (filled (full_subst e name p)) gs)).
Proof.
  intros P Hf Hc Hq. apply (substitutions_render (map fst (full_subst e name p))); auto.
  - now apply full_good.
  - apply incl_refl.
  - intros k v s Hk Hs. apply (inert_quiet e name p). eauto.
Qed.

Lemma flag_value e : the_argument (detail e $"value") = if missing_value e then $"argument" else
  $"argument ('" ++ match detail e $"value" with Some v => v | None => [] end ++ $"')".
Proof.
  unfold missing_value, the_argument. destruct (detail e $"value") as [[|c v]|]; auto. cbn [is_empty]. unfold quoted.
  cbn. now rewrite <- app_assoc.
Qed.
Lemma flag_name name : the_option name = if is_empty name then $"option" else $"option '" ++ name ++ $"'".
Proof. now destruct name. Qed.

Section Concrete.
Variable e : exn.
Variables name p : str.
Hypothesis P : presentable e.
Hypothesis Hname : inert e name.
Hypothesis Hvalue : forall v, detail e $"value" = Some v -> inert e v.
Hypothesis Hline : forall v, detail e $"invalid_line" = Some v -> inert e v.

Definition known_hole (g : seg) : bool :=
  match g with
  | (Some k, s) => is_empty s && (str_eqb k $"canonical_option" || str_eqb k $"value" || str_eqb k $"invalid_line")
  | (None, _) => true
  end.

Lemma concrete_done fuel msg :
  render (cut [] msg) = msg -> forallb clean_b (cut [] msg) = true -> forallb known_hole (cut [] msg) = true ->
  List.length (cut [] msg) < fuel ->
  apply_substitutions fuel (full_subst e name p) msg = Ok (render (map (filled (full_subst e name p)) (cut [] msg))).
Proof.
  intros E Hc Hk Hf. rewrite <- E at 1. apply substitutions_done; auto.
  - now apply clean_b_all.
  - intros k v s Hv Hs. rewrite forallb_forall in Hk. apply Hk in Hs. cbn [known_hole] in Hs.
    apply andb_true_iff in Hs. destruct Hs as [Hs1 Hs2]. apply is_empty_true in Hs1. subst s. rewrite app_nil_r.
    rewrite !orb_true_iff, !str_eqb_eq in Hs2. destruct Hs2 as [[->| ->]| ->].
    + rewrite full_name in Hv. injection Hv as <-. exact Hname.
    + rewrite full_other in Hv by discriminate. auto.
    + rewrite full_other in Hv by discriminate. auto.
Qed.

Lemma substitute_concrete t fuel msg text :
  (exists o tok, detail e $"option" = Some o /\ detail e $"original_token" = Some tok /\ shown_name (ex_style e) o tok name) ->
  style_prefix (ex_style e) p ->
  flag_defaults fuel (is_empty name) (is_empty p) (missing_value e) t = Ok msg ->
  render (cut [] msg) = msg -> forallb clean_b (cut [] msg) = true -> forallb known_hole (cut [] msg) = true ->
  List.length (cut [] msg) < fuel ->
  render (map (filled (full_subst e name p)) (cut [] msg)) = text ->
  substitute_placeholders fuel e t = Ok text.
Proof.
  intros (o & tok & Ho & Ht & Hn) Hp Hd E1 E2 E3 Hf Ht'. unfold substitute_placeholders.
  rewrite (name_fun e o tok name Ho Ht Hn), (prefix_fun _ _ Hp). cbn [bind]. fold (full_subst e name p).
  rewrite defaults_flags, Hd. cbn [bind]. rewrite concrete_done by auto. now rewrite Ht'.
Qed.

End Concrete.

Definition filled_by (f : str -> option str) (g : seg) : seg :=
  match fst g with
  | Some k => match f k with Some v => (None, match snd g with [] => v | s => v ++ s end) | None => g end
  | None => g
  end.

Definition lookup3 (name : str) (value line : option str) (k : str) : option str :=
  if str_eqb k $"canonical_option" then Some name else if str_eqb k $"value" then value
  else if str_eqb k $"invalid_line" then line else None.

(** Every class but [ambiguous_option]. *)
Lemma what_concrete e name p o tok names n :
  presentable e -> inert e name ->
  (forall v, detail e $"value" = Some v -> inert e v) ->
  (forall v, detail e $"invalid_line" = Some v -> inert e v) ->
  has_option_name (ex_class e) = true -> (forall alts, ex_class e <> ambiguous_option alts) ->
  detail e $"option" = Some o -> detail e $"original_token" = Some tok -> shown_name (ex_style e) o tok name ->
  style_prefix (ex_style e) p ->
  what (20 + n) e = Ok (message e name p names).
Proof.
  intros P Hn Hv Hl Hc Ha Ho Ht Hs Hp. unfold what. rewrite Hc.
  assert (Hline : forall k, ex_class e = invalid_command_line_syntax k \/ ex_class e = invalid_config_file_syntax k ->
    k = unrecognized_line -> exists l, detail e $"invalid_line" = Some l).
  { intros k H1 H2. pose proof (pr_line e P k H1 H2) as H. destruct (detail e $"invalid_line"); [eauto|contradiction]. }
  assert (Hsub : forall t text,
    (exists msg, flag_defaults (20 + n) (is_empty name) (is_empty p) (missing_value e) t = Ok msg /\
      render (cut [] msg) = msg /\ forallb clean_b (cut [] msg) = true /\ forallb known_hole (cut [] msg) = true /\
      List.length (cut [] msg) < 20 + n /\ render (map (filled (full_subst e name p)) (cut [] msg)) = text) ->
    substitute_placeholders (20 + n) e t = Ok text).
  { intros t text (msg & H1 & H2 & H3 & H4 & H5 & H6). eapply substitute_concrete; eauto. }
  unfold message. clear Hv Hl Hn P Ho Ht Hs Hp.
  assert (Hf : forall gs, forallb known_hole gs = true ->
    map (filled (full_subst e name p)) gs = map (filled_by (lookup3 name (detail e $"value") (detail e $"invalid_line"))) gs).
  { intros gs Hg. apply map_ext_in. intros [[k|] s] Hi; [|reflexivity]. rewrite forallb_forall in Hg. apply Hg in Hi.
    cbn [known_hole] in Hi. apply andb_true_iff in Hi. destruct Hi as [Es Hi]. rewrite !orb_true_iff, !str_eqb_eq in Hi.
    apply is_empty_true in Es. subst s. unfold filled, filled_by. cbn [fst snd]. destruct Hi as [[->| ->]| ->].
    - rewrite full_name, app_nil_r. reflexivity.
    - rewrite full_other by discriminate. change (lookup3 name (detail e $"value") (detail e $"invalid_line") $"value") with (detail e $"value").
      destruct (detail e $"value"); [now rewrite app_nil_r|reflexivity].
    - rewrite full_other by discriminate.
      change (lookup3 name (detail e $"value") (detail e $"invalid_line") $"invalid_line") with (detail e $"invalid_line").
      destruct (detail e $"invalid_line"); [now rewrite app_nil_r|reflexivity]. }
  assert (Hsub' : forall t text,
    (exists msg, flag_defaults (20 + n) (is_empty name) (is_empty p) (missing_value e) t = Ok msg /\
      render (cut [] msg) = msg /\ forallb clean_b (cut [] msg) = true /\ forallb known_hole (cut [] msg) = true /\
      List.length (cut [] msg) < 20 + n /\
      render (map (filled_by (lookup3 name (detail e $"value") (detail e $"invalid_line"))) (cut [] msg)) = text) ->
    substitute_placeholders (20 + n) e t = Ok text).
  { intros t text (msg & H1 & H2 & H3 & H4 & H5 & H6). apply Hsub. exists msg. rewrite Hf by auto. auto 10. }
  clear Hsub Hf.
  rewrite ?flag_name.
  destruct (ex_class e) eqn:Ec; try discriminate Hc; try (now contradiction (Ha alternatives)); cbn [error_template];
    apply Hsub'.
  all: try match goal with k : syntax_kind |- _ => destruct k end.
  all: try match goal with k : validation_kind |- _ => destruct k end.
  all: cbn [syntax_template validation_template].
  all: unfold message, syntax_message, validation_message, invalid_bool_message, invalid_value_message; cbv zeta.
  all: rewrite ?flag_name, ?flag_value.
  all: assert (Hm : missing_value e = match detail e $"value" with None => true | Some v => is_empty v end) by reflexivity.
  all: try (destruct (Hline _ ltac:(eauto) eq_refl) as [l El]; rewrite El in *; cbn [the_line]; unfold quoted).
  all: clear Hsub' Ha Hc Ec Hline.
  all: set (dv := detail e $"value") in *; clearbody dv.
  all: try (set (dl := detail e $"invalid_line") in *; clearbody dl).
  all: destruct (missing_value e); clear e.
  all: abstract (destruct (is_empty name), (is_empty p); eexists;
    (split; [vm_compute; reflexivity|]; split; [vm_compute; reflexivity|]; split; [vm_compute; reflexivity|];
     split; [vm_compute; reflexivity|]; split; [cbv -[lt Nat.add]; lia|]);
    (destruct dv as [v|]; try discriminate Hm);
    unfold quoted; rewrite <- ?app_assoc; vm_compute; reflexivity).
Qed.
