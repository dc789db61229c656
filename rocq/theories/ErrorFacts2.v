(** Facts about error messages: ambiguous options, safety, divergence. *)

From Coq Require Import List Ascii String NArith ZArith Bool Arith Lia Sorted.
From Verif Require Import Base Errors Spec BaseFacts SpecErrors ErrorFacts.
Import ListNotations.

(** ** Ambiguous options *)

Lemma sorted_unique (a b : list str) :
  StronglySorted str_lt a -> StronglySorted str_lt b -> (forall x, In x a <-> In x b) -> a = b.
Proof.
  intros Ha. revert b. induction Ha as [|x a Ha IH Hx]; intros b Hb Hab.
  - destruct b as [|y b]; auto. exfalso. apply (proj2 (Hab y)). now left.
  - destruct Hb as [|y b Hb Hy].
    + exfalso. apply (proj1 (Hab x)). now left.
    + rewrite Forall_forall in Hx, Hy. assert (x = y).
      { destruct (proj1 (Hab x) (or_introl eq_refl)) as [E|H1]; auto.
        destruct (proj2 (Hab y) (or_introl eq_refl)) as [E|H2]; auto.
        exfalso. apply Hy in H1. apply Hx in H2. exact (str_lt_asym H1 H2). }
      subst y. f_equal. apply IH; auto. intros z. split; intros Hz.
      * destruct (proj1 (Hab z) (or_intror Hz)) as [<-|]; auto. apply Hx in Hz. now apply str_lt_irrefl in Hz.
      * destruct (proj2 (Hab z) (or_intror Hz)) as [<-|]; auto. apply Hy in Hz. now apply str_lt_irrefl in Hz.
Qed.

Lemma distinct_sorted_fun alts names : distinct_sorted alts names -> ss_insert_all alts [] = names.
Proof.
  intros [H1 H2]. apply sorted_unique; auto.
  - apply ss_insert_all_sorted. constructor.
  - intros x. rewrite ss_insert_all_In, H2. cbn. tauto.
Qed.

Lemma distinct_sorted_exists alts : exists names, distinct_sorted alts names.
Proof.
  exists (ss_insert_all alts []). split.
  - apply ss_insert_all_sorted. constructor.
  - intros x. rewrite ss_insert_all_In. cbn. tauto.
Qed.

(** The pieces of the enumeration, beginning after its first quote. *)
Fixpoint enum_segs (names : list str) : list seg :=
  match names with
  | [] => []
  | [a] => [(Some $"prefix", a); (None, [])]
  | [a; b] => [(Some $"prefix", a); (None, $", and "); (Some $"prefix", b); (None, [])]
  | a :: names' => (Some $"prefix", a) :: (None, $", ") :: enum_segs names'
  end.

Lemma enum_ind (Q : list str -> Prop) :
  (forall a, Q [a]) -> (forall a b, Q [a; b]) -> (forall a b c l, Q (b :: c :: l) -> Q (a :: b :: c :: l)) ->
  forall l, l <> [] -> Q l.
Proof.
  intros H1 H2 H3. induction l as [|a l IH]; [contradiction|]. intros _.
  destruct l as [|b [|c l]]; auto. apply H3, IH. discriminate.
Qed.

Lemma enum_template names : names <> [] ->
  (if (1 <? List.length names)%nat then quote_alternatives (removelast names) ++ $"and " else [])
  ++ $"'%prefix%" ++ last names [] ++ $"'" = post (enum_segs names).
Proof.
  revert names. apply enum_ind.
  - intros a. cbn. now rewrite <- ?app_assoc.
  - intros a b. cbn. rewrite <- ?app_assoc. cbn. now rewrite <- ?app_assoc, ?app_nil_r.
  - intros a b c l IH. change (1 <? List.length (b :: c :: l))%nat with true in IH.
    change (1 <? List.length (a :: b :: c :: l))%nat with true. cbv iota in *.
    change (removelast (a :: b :: c :: l)) with (a :: removelast (b :: c :: l)).
    change (last (a :: b :: c :: l) []) with (last (b :: c :: l) []).
    change (enum_segs (a :: b :: c :: l)) with ((Some $"prefix", a) :: (None, $", ") :: enum_segs (b :: c :: l)).
    unfold post in *. cbn [map List.concat]. rewrite <- IH. cbn [quote_alternatives]. rewrite <- !app_assoc. unfold rend1. cbn [fst snd].
    cbn. now rewrite <- ?app_assoc.
Qed.

Definition lead (names alts : list str) : str :=
  $" is ambiguous and matches " ++
  match names, alts with [_], _ :: _ :: _ => $"different versions of " | _, _ => [] end.

Definition amb_segs (no_name : bool) (names alts : list str) : list seg :=
  (if no_name then [(None, $"option" ++ lead names alts)]
   else [(None, $"option "); (Some $"canonical_option", []); (None, lead names alts)])
  ++ enum_segs names.

Lemma rev_last A (l : list A) d : l <> [] -> exists r, rev l = last l d :: r.
Proof.
  intros H. destruct (exists_last H) as (l' & x & ->). rewrite rev_app_distr, last_last. cbn. eauto.
Qed.

Lemma render_app_post a l : a <> [] -> render (a ++ l) = render a ++ post l.
Proof.
  destruct a as [|g a]; [contradiction|]. intros _. cbn [app render]. unfold post. now rewrite map_app, concat_app, <- app_assoc.
Qed.

Lemma ambiguous_template_render names alts :
  names <> [] -> ss_insert_all alts [] = names ->
  ambiguous_template (error_template (ambiguous_option alts)) alts = Ok (render (amb_segs false names alts)).
Proof.
  intros Hne Hn. unfold ambiguous_template. cbv zeta. rewrite Hn. destruct (rev_last _ names [] Hne) as [r Er]. rewrite Er.
  f_equal. unfold amb_segs. rewrite render_app_post by discriminate. rewrite <- (enum_template names Hne).
  cbn [render post map List.concat]. unfold rend1. cbn [fst snd error_template]. unfold lead.
  destruct names as [|a [|b names]]; [contradiction| |].
  - cbn [List.length Nat.ltb Nat.leb Nat.eqb]. destruct alts as [|x [|y alts]]; cbn; rewrite <- ?app_assoc; reflexivity.
  - change (1 <? List.length (a :: b :: names))%nat with true. change (List.length (a :: b :: names) =? 1)%nat with false.
    rewrite andb_false_r. cbv iota. set (qa := quote_alternatives (removelast (a :: b :: names))).
    set (la := last (a :: b :: names) []). clearbody qa la. cbn. rewrite <- ?app_assoc. cbn. reflexivity.
Qed.

Lemma enum_clean K names : (forall a, In a names -> without "%"%char a) -> Forall (clean K) (enum_segs names).
Proof.
  intros H. destruct names as [|x names']; [constructor|]. remember (x :: names') as names eqn:En.
  assert (Hne : names <> []) by (subst; discriminate). clear x names' En. revert H.
  assert (Hp : good_name $"prefix") by (split; intros H; cbn in H; intuition discriminate).
  assert (Hq : forall s, without "%"%char s -> clean K (None, s)) by (intros s Hs; now apply without_quiet).
  assert (Hh : forall a, without "%"%char a -> clean K (Some $"prefix", a)) by (intros a Ha; split; assumption).
  pattern names. revert names Hne. apply enum_ind.
  - intros a H. constructor; [apply Hh, H; now left|]. constructor; [apply Hq; intros []|constructor].
  - intros a b H. constructor; [apply Hh, H; now left|]. constructor; [apply Hq; intros Hi; cbn in Hi; intuition discriminate|].
    constructor; [apply Hh, H; right; now left|]. constructor; [apply Hq; intros []|constructor].
  - intros a b c l IH H. change (enum_segs (a :: b :: c :: l)) with ((Some $"prefix", a) :: (None, $", ") :: enum_segs (b :: c :: l)).
    constructor; [apply Hh, H; now left|]. constructor; [apply Hq; intros Hi; cbn in Hi; intuition discriminate|].
    apply IH. intros z Hz. apply H. now right.
Qed.

Lemma enum_holes k s names : In (Some k, s) (enum_segs names) -> k = $"prefix" /\ In s names.
Proof.
  destruct names as [|x names']; [intros []|]. remember (x :: names') as names eqn:En.
  assert (Hne : names <> []) by (subst; discriminate). clear x names' En.
  pattern names. revert names Hne. apply enum_ind.
  - intros a [H|[H|[]]]; [injection H as <- <-; cbn; auto|discriminate].
  - intros a b [H|[H|[H|[H|[]]]]]; try discriminate; injection H as <- <-; cbn; auto.
  - intros a b c l IH. change (enum_segs (a :: b :: c :: l)) with ((Some $"prefix", a) :: (None, $", ") :: enum_segs (b :: c :: l)).
    intros [H|[H|H]]; [injection H as <- <-; cbn; auto|discriminate|]. destruct (IH H). split; auto. now right.
Qed.

Lemma lead_clean names alts : without "%"%char (lead names alts).
Proof.
  unfold lead. intros H. apply in_app_or in H. destruct H as [H|H].
  - cbn in H. intuition discriminate.
  - destruct names as [|? [|? ?]], alts as [|? [|? ?]]; cbn in H; intuition discriminate.
Qed.

Lemma amb_clean K b names alts : (forall a, In a names -> without "%"%char a) -> Forall (clean K) (amb_segs b names alts).
Proof.
  intros H. unfold amb_segs. apply Forall_app. split; [|now apply enum_clean].
  pose proof (lead_clean names alts) as Hl. destruct b.
  - repeat constructor. apply without_quiet. intros Hi. apply in_app_or in Hi. destruct Hi as [Hi|Hi]; [cbn in Hi; intuition discriminate|auto].
  - repeat constructor.
    + apply without_quiet. intros Hi. cbn in Hi; intuition discriminate.
    + intros Hi. cbn in Hi; intuition discriminate.
    + intros Hi. cbn in Hi; intuition discriminate.
    + intros [].
    + apply without_quiet. exact Hl.
Qed.

(** A text with the quote inside is found only if its placeholder is. *)
Lemma contains_trans a b c : contains a b -> contains b c -> contains a c.
Proof. intros (x & y & ->) (u & v & ->). exists (u ++ x), (y ++ v). now rewrite <- !app_assoc. Qed.

Lemma replace_absent fuel from to msg : find_sub from msg = None -> replace_token (S fuel) from to msg = Ok msg.
Proof. intros H. cbn [replace_token]. now rewrite H. Qed.

Definition default_names : list str := [$"canonical_option"; $"prefix"; $"value"].
Lemma default_names_good : Forall good_name default_names.
Proof. repeat constructor; intros H; cbn in H; intuition discriminate. Qed.

(** The pieces after the default replacements. *)
Definition amb_defaults (no_name no_prefix : bool) (names alts : list str) : list seg :=
  if no_prefix then map (fill1 $"prefix" []) (amb_segs no_name names alts) else amb_segs no_name names alts.

Lemma amb_hole b names alts k s : In (Some k, s) (amb_segs b names alts) ->
  (k = $"canonical_option" /\ s = [] /\ b = false) \/ (k = $"prefix" /\ In s names).
Proof.
  unfold amb_segs. rewrite in_app_iff. intros [H|H].
  - destruct b; cbn [In] in H; [destruct H as [H|[]]; discriminate|].
    destruct H as [H|[H|[H|[]]]]; try discriminate. injection H as <- <-. auto.
  - apply enum_holes in H. auto.
Qed.

Lemma is_hole_In k gs g : In g gs -> is_hole k g = true -> In (Some k, snd g) gs.
Proof. intros Hi H. apply is_hole_true in H. now rewrite <- H. Qed.

Lemma not_hole k gs : (forall s, ~ In (Some k, s) gs) -> forall g, In g gs -> is_hole k g = false.
Proof. intros H g Hg. destruct (is_hole k g) eqn:E; auto. exfalso. exact (H _ (is_hole_In _ _ _ Hg E)). Qed.

Lemma flag_defaults_amb no_name no_prefix no_value names alts fuel :
  (forall a, In a names -> without "%"%char a) ->
  List.length (amb_segs false names alts) + 2 < fuel ->
  flag_defaults fuel no_name no_prefix no_value (render (amb_segs false names alts))
  = Ok (render (amb_defaults no_name no_prefix names alts))
  /\ Forall (clean default_names) (amb_defaults no_name no_prefix names alts).
Proof.
  intros Hn Hf. unfold flag_defaults.
  assert (Hc : forall b, Forall (clean default_names) (amb_segs b names alts)) by (intros b; now apply amb_clean).
  assert (E1 : (if no_name then replace_token fuel $"option '%canonical_option%'" $"option" (render (amb_segs false names alts))
                else Ok (render (amb_segs false names alts))) = Ok (render (amb_segs no_name names alts))).
  { destruct no_name; auto. destruct fuel as [|[|fuel]]; [lia|lia|]. cbn [replace_token].
    assert (Er : forall b, render (amb_segs b names alts)
      = (if b then $"option" else $"option '%canonical_option%'") ++ lead names alts ++ post (enum_segs names)).
    { intros b. unfold amb_segs. rewrite render_app_post by now destruct b. destruct b; cbn [render post map List.concat].
      - unfold rend1. cbn [fst snd]. now rewrite app_nil_r, <- app_assoc.
      - unfold rend1. cbn [fst snd]. rewrite <- !app_assoc. reflexivity. }
    rewrite (Er false).
    assert (E0 : find_sub $"option '%canonical_option%'" ($"option '%canonical_option%'" ++ lead names alts ++ post (enum_segs names)) = Some 0).
    { set (r := lead names alts ++ post (enum_segs names)). clearbody r.
      assert (Es : starts_with $"option '%canonical_option%'" ($"option '%canonical_option%'" ++ r) = true)
        by (apply starts_with_prefix; now exists r).
      destruct ($"option '%canonical_option%'" ++ r); cbn [find_sub]; now rewrite Es. }
    rewrite E0. cbn [firstn app Nat.add]. rewrite skipn_app_exact, <- (Er true).
    assert (En : find_sub $"option '%canonical_option%'" (render (amb_segs true names alts)) = None).
    { apply find_sub_None. intros Hi. assert (Hp : contains (placeholder $"canonical_option") (render (amb_segs true names alts))).
      { eapply contains_trans; [|exact Hi]. exists $"option '", $"'". reflexivity. }
      revert Hp. apply find_sub_None. apply (render_find_none default_names default_names_good); auto.
      - now left.
      - apply not_hole. intros s Hs. apply amb_hole in Hs. destruct Hs as [(_ & _ & ?)|[? _]]; discriminate. }
    now rewrite En. }
  rewrite E1. cbn [bind].
  assert (E2 : (if no_prefix then replace_token fuel $"%prefix%" [] (render (amb_segs no_name names alts))
                else Ok (render (amb_segs no_name names alts))) = Ok (render (amb_defaults no_name no_prefix names alts))
              /\ Forall (clean default_names) (amb_defaults no_name no_prefix names alts)).
  { unfold amb_defaults. destruct no_prefix; [|auto].
    change $"%prefix%" with (placeholder $"prefix").
    apply (replace_render default_names default_names_good (holes $"prefix" (amb_segs no_name names alts))); auto.
    - pose proof (holes_le $"prefix" (amb_segs no_name names alts)) as Hl.
      assert (List.length (amb_segs no_name names alts) <= List.length (amb_segs false names alts))
        by (unfold amb_segs; rewrite !app_length; destruct no_name; cbn; lia). lia.
    - right. now left.
    - intros s Hs. apply amb_hole in Hs. destruct Hs as [[? _]|[_ Hs]]; [discriminate|]. apply without_quiet. cbn. auto. }
  destruct E2 as [E2 Hc2]. rewrite E2. cbn [bind]. split; [|exact Hc2].
  destruct no_value; [|reflexivity]. destruct fuel as [|fuel]; [lia|]. apply replace_absent. apply find_sub_None. intros Hi.
  assert (Hp : contains (placeholder $"value") (render (amb_defaults no_name no_prefix names alts))).
  { eapply contains_trans; [|exact Hi]. exists $"argument ('", $"')". reflexivity. }
  revert Hp. apply find_sub_None. apply (render_find_none default_names default_names_good); auto.
  - right. right. now left.
  - apply not_hole. intros s Hs. unfold amb_defaults in Hs. destruct no_prefix.
    + apply in_map_iff in Hs. destruct Hs as (g & Eg & Hg). unfold fill1 in Eg. destruct (is_hole $"prefix" g); [discriminate|].
      subst g. apply amb_hole in Hg. destruct Hg as [[? _]|[? _]]; discriminate.
    + apply amb_hole in Hs. destruct Hs as [[? _]|[? _]]; discriminate.
Qed.

Lemma amb_defaults_clean K b b' names alts : (forall a, In a names -> without "%"%char a) ->
  Forall (clean K) (amb_defaults b b' names alts).
Proof.
  intros H. pose proof (amb_clean K b names alts H) as Hc. unfold amb_defaults. destruct b'; auto.
  rewrite Forall_forall in *. intros g Hg. apply in_map_iff in Hg. destruct Hg as (h & <- & Hh). unfold fill1.
  destruct (is_hole $"prefix" h) eqn:E; auto. apply without_quiet. cbn.
  pose proof (is_hole_In _ _ _ Hh E) as Hi. apply amb_hole in Hi. destruct Hi as [[? _]|[_ Hi]]; [discriminate|auto].
Qed.

Lemma enum_filled ss p names b : names <> [] -> sm_find $"prefix" ss = Some p -> (b = true -> p = []) ->
  post (map (filled ss) (if b then map (fill1 $"prefix" []) (enum_segs names) else enum_segs names)) = enumeration p names.
Proof.
  intros Hne Hp Hb.
  assert (E1 : forall s, filled ss (Some $"prefix", s) = (None, p ++ s)) by (intros s; unfold filled; cbn [fst snd]; now rewrite Hp).
  assert (E2 : forall s, filled ss (None, s) = (None, s)) by reflexivity.
  assert (E3 : forall s, fill1 $"prefix" [] (Some $"prefix", s) = (None, s)) by (intros s; unfold fill1, is_hole; cbn [fst snd app]; now rewrite str_eqb_refl).
  assert (E4 : forall s, fill1 $"prefix" [] (None, s) = (None, s)) by reflexivity.
  assert (E5 : forall s, (if b then s else p ++ s) = p ++ s) by (intros s; destruct b; auto; now rewrite Hb).
  assert (E : map (filled ss) (if b then map (fill1 $"prefix" []) (enum_segs names) else enum_segs names)
            = map (fun g : seg => (None, match fst g with Some _ => p ++ snd g | None => snd g end)) (enum_segs names)).
  { destruct b.
    - rewrite map_map. apply map_ext_in. intros [[k|] s] Hg; auto. destruct (enum_holes k s names Hg) as [-> _].
      rewrite E3, E2. cbn [fst snd]. now rewrite Hb.
    - apply map_ext_in. intros [[k|] s] Hg; auto. destruct (enum_holes k s names Hg) as [-> _]. now rewrite E1. }
  rewrite E. clear - Hne. pattern names. revert names Hne. apply enum_ind.
  - intros a. cbn. unfold quoted. now rewrite <- ?app_assoc.
  - intros a b. cbn. unfold quoted. rewrite <- ?app_assoc. cbn. rewrite <- ?app_assoc. reflexivity.
  - intros a b c l IH. change (enum_segs (a :: b :: c :: l)) with ((Some $"prefix", a) :: (None, $", ") :: enum_segs (b :: c :: l)).
    change (enumeration p (a :: b :: c :: l)) with (quoted (p ++ a) ++ $", " ++ enumeration p (b :: c :: l)).
    rewrite <- IH. unfold post. cbn [map List.concat fst snd]. unfold rend1 at 1 2. cbn [fst snd]. unfold quoted.
    rewrite <- !app_assoc. reflexivity.
Qed.

Lemma amb_split b b' names alts : amb_defaults b b' names alts
  = (if b then [(None, $"option" ++ lead names alts)]
     else [(None, $"option "); (Some $"canonical_option", []); (None, lead names alts)])
    ++ (if b' then map (fill1 $"prefix" []) (enum_segs names) else enum_segs names).
Proof. unfold amb_defaults, amb_segs. destruct b', b; rewrite ?map_app; reflexivity. Qed.

Lemma what_ambiguous e name p o tok names alts : 
  presentable e -> inert e name -> ex_class e = ambiguous_option alts ->
  distinct_sorted alts names -> (forall a, In a alts -> without "%"%char a) ->
  detail e $"option" = Some o -> detail e $"original_token" = Some tok -> shown_name (ex_style e) o tok name ->
  style_prefix (ex_style e) p ->
  exists N, forall fuel, N <= fuel -> what fuel e = Ok (message e name p names).
Proof.
  intros P Hname Hc Hd Ha Ho Ht Hs Hp.
  assert (Hnp : names <> []).
  { intros ->. destruct Hd as [_ Hd]. destruct alts as [|a alts]; [now apply (pr_alternatives e P [] Hc)|].
    apply (proj2 (Hd a)). now left. }
  assert (Hn : forall a, In a names -> without "%"%char a) by (intros a Hi; apply Ha; now apply (proj2 Hd)).
  unfold what. rewrite Hc. cbn [has_option_name]. unfold message. rewrite Hc. unfold matches_text.
  destruct (Z.eqb (ex_style e) allow_dash_for_short || Z.eqb (ex_style e) allow_slash_for_short) eqn:Es.
  - exists 20. intros fuel Hf. rewrite app_nil_r, flag_name.
    unfold substitute_placeholders. rewrite (name_fun e o tok name Ho Ht Hs), (prefix_fun _ _ Hp). cbn [bind].
    fold (full_subst e name p). rewrite defaults_flags.
    set (gs := if is_empty name then [(None, $"option is ambiguous")]
               else [(None, $"option "); (Some $"canonical_option", []); (None, $" is ambiguous")] : list seg).
    assert (E : flag_defaults fuel (is_empty name) (is_empty p) (missing_value e) (error_template (ambiguous_option alts)) = Ok (render gs)).
    { do 20 (destruct fuel as [|fuel]; [lia|]). subst gs. destruct (is_empty name), (is_empty p), (missing_value e); vm_compute; reflexivity. }
    rewrite E. cbn [bind]. rewrite (substitutions_done e name p gs); auto.
    + f_equal. subst gs. destruct (is_empty name); [reflexivity|]. cbn [map]. unfold filled at 2. cbn [fst snd].
      rewrite full_name. unfold render, post, filled, rend1. cbn [fst snd map List.concat]. rewrite !app_nil_r, <- !app_assoc. reflexivity.
    + subst gs. destruct (is_empty name); cbn; lia.
    + apply clean_b_all. subst gs. destruct (is_empty name); reflexivity.
    + intros k v s Hk Hi. subst gs. destruct (is_empty name); cbn [In] in Hi; [destruct Hi as [Hi|[]]; discriminate|].
      destruct Hi as [Hi|[Hi|[Hi|[]]]]; try discriminate. injection Hi as <- <-. rewrite full_name in Hk. injection Hk as <-.
      now rewrite app_nil_r.
  - exists (List.length (amb_segs false names alts) + 3). intros fuel Hf.
    rewrite (ambiguous_template_render names alts Hnp (distinct_sorted_fun _ _ Hd)). cbn [bind].
    unfold substitute_placeholders. rewrite (name_fun e o tok name Ho Ht Hs), (prefix_fun _ _ Hp). cbn [bind].
    fold (full_subst e name p). rewrite defaults_flags.
    destruct (flag_defaults_amb (is_empty name) (is_empty p) (missing_value e) names alts fuel Hn) as [E _]; [lia|].
    rewrite E. cbn [bind]. rewrite (substitutions_done e name p); auto.
    + f_equal. rewrite amb_split, map_app, render_app_post by now destruct (is_empty name).
      rewrite (enum_filled (full_subst e name p) p); auto; [|apply full_prefix|apply is_empty_true].
      rewrite flag_name. unfold lead. set (dv := match names with [] => _ | _ => _ end). clearbody dv. destruct (is_empty name); cbn [map].
      * unfold filled, render, post, rend1. cbn [fst snd map List.concat]. rewrite app_nil_r, <- !app_assoc. reflexivity.
      * unfold filled. cbn [fst snd]. rewrite full_name. unfold render, post, rend1. cbn [fst snd map List.concat].
        rewrite !app_nil_r, <- !app_assoc. reflexivity.
    + assert (List.length (amb_defaults (is_empty name) (is_empty p) names alts) <= List.length (amb_segs false names alts)); [|lia].
      unfold amb_defaults, amb_segs. destruct (is_empty p); rewrite ?map_length, !app_length; destruct (is_empty name); cbn; lia.
    + now apply amb_defaults_clean.
    + intros k v s Hk Hi. unfold amb_defaults in Hi.
      assert (Hi' : In (Some k, s) (amb_segs (is_empty name) names alts)).
      { destruct (is_empty p); auto. apply in_map_iff in Hi. destruct Hi as (g & Eg & Hg). unfold fill1 in Eg.
        destruct (is_hole $"prefix" g); [discriminate|]. now subst g. }
      apply amb_hole in Hi'. destruct Hi' as [(-> & -> & _)|[-> Hin]].
      * rewrite full_name in Hk. injection Hk as <-. now rewrite app_nil_r.
      * rewrite full_prefix in Hk. injection Hk as <-. intros n _ Hcon. apply (contains_In _ _ "%"%char) in Hcon; [|now left].
        apply in_app_or in Hcon. destruct Hcon as [Hcon|Hcon]; [|now apply (Hn s)].
        destruct Hp; cbn in Hcon; intuition discriminate.
Qed.

(** ** Any error *)

Lemma what_message e name p o tok names :
  has_option_name (ex_class e) = true -> presentable e ->
  detail e $"option" = Some o -> detail e $"original_token" = Some tok ->
  shown_name (ex_style e) o tok name -> style_prefix (ex_style e) p -> distinct_sorted (alternatives e) names ->
  inert e name ->
  (forall v, detail e $"value" = Some v -> inert e v) ->
  (forall v, detail e $"invalid_line" = Some v -> inert e v) ->
  (forall a, In a (alternatives e) -> without "%"%char a) ->
  exists N, forall fuel, N <= fuel -> what fuel e = Ok (message e name p names).
Proof.
  intros Hc P Ho Ht Hs Hp Hd Hn Hv Hl Ha.
  assert (Hcases : (exists alts, ex_class e = ambiguous_option alts) \/ forall alts, ex_class e <> ambiguous_option alts)
    by (destruct (ex_class e); eauto; right; discriminate).
  destruct Hcases as [[alts E]|Hna].
  - unfold alternatives in *. rewrite E in *. eapply what_ambiguous; eauto.
  - exists 20. intros fuel Hf. replace fuel with (20 + (fuel - 20)) by lia. eapply what_concrete; eauto.
Qed.

Lemma replace_token_safe fuel from to msg : (exists m, replace_token fuel from to msg = Ok m) \/ replace_token fuel from to msg = NoFuel.
Proof.
  revert msg. induction fuel as [|fuel IH]; intros msg; cbn [replace_token]; auto.
  destruct (find_sub from msg); eauto.
Qed.

Lemma flag_defaults_safe fuel a b c msg : (exists m, flag_defaults fuel a b c msg = Ok m) \/ flag_defaults fuel a b c msg = NoFuel.
Proof.
  unfold flag_defaults.
  destruct a; [destruct (replace_token_safe fuel $"option '%canonical_option%'" $"option" msg) as [[m ->]| ->]; [|now right]|];
  cbn [bind];
  (destruct b; [match goal with |- context [replace_token fuel $"%prefix%" [] ?x] => destruct (replace_token_safe fuel $"%prefix%" [] x) as [[m2 ->]| ->] end; [|now right]|]);
  cbn [bind]; (destruct c; [apply replace_token_safe|eauto]).
Qed.

Lemma apply_substitutions_safe fuel ss : forall msg,
  (exists m, apply_substitutions fuel ss msg = Ok m) \/ apply_substitutions fuel ss msg = NoFuel.
Proof.
  induction ss as [|[k v] ss IH]; intros msg; cbn [apply_substitutions]; eauto.
  destruct (replace_token_safe fuel ([c_percent] ++ k ++ [c_percent]) v msg) as [[m ->]| ->]; cbn [bind]; auto.
Qed.

Lemma what_safe fuel e : showable e -> (exists m, what fuel e = Ok m) \/ what fuel e = NoFuel.
Proof.
  intros H. unfold what. destruct (has_option_name (ex_class e)) eqn:Hc; [|eauto]. specialize (H Hc).
  assert (Hs : forall t, (exists m, substitute_placeholders fuel e t = Ok m) \/ substitute_placeholders fuel e t = NoFuel).
  { intros t. destruct (detail e $"option") as [o|] eqn:Ho; [|now apply (pr_option e H) in Ho].
    destruct (detail e $"original_token") as [tok|] eqn:Ht; [|now apply (pr_token e H) in Ht].
    destruct (shown_name_exists e o tok H) as [name Hn]. destruct (style_prefix_exists e H) as [p Hp].
    unfold substitute_placeholders. rewrite (name_fun e o tok name Ho Ht Hn), (prefix_fun _ _ Hp). cbn [bind].
    fold (full_subst e name p). rewrite defaults_flags.
    destruct (flag_defaults_safe fuel (is_empty name) (is_empty p) (missing_value e) t) as [[m ->]| ->]; [|now right].
    cbn [bind]. apply apply_substitutions_safe. }
  destruct (ex_class e) as [|alts| | | | | | | | | | | | | | | |] eqn:Ec; auto.
  destruct (_ || _); auto. destruct (distinct_sorted_exists alts) as [names Hd].
  rewrite (ambiguous_template_render names alts); [apply Hs| |now apply distinct_sorted_fun].
  intros ->. destruct Hd as [_ Hd]. destruct alts as [|a alts]; [now apply (pr_alternatives e H [] Ec)|].
  apply (proj2 (Hd a)). now left.
Qed.

(** ** Divergence *)

Lemma find_sub_Some p s n : find_sub p s = Some n -> exists a b, s = a ++ p ++ b /\ List.length a = n.
Proof.
  revert n. induction s as [|c s IH]; intros n H; cbn [find_sub] in H.
  - destruct (starts_with p []) eqn:E; [|discriminate]. injection H as <-. apply starts_with_prefix in E. destruct E as [t Et]. now exists [], t.
  - destruct (starts_with p (c :: s)) eqn:E.
    + injection H as <-. apply starts_with_prefix in E. destruct E as [t Et]. now exists [], t.
    + destruct (find_sub p s) as [m|]; [|discriminate]. injection H as <-.
      destruct (IH m eq_refl) as (a & b & -> & <-). now exists (c :: a), b.
Qed.

Lemma replace_diverges from to : contains from to -> forall fuel msg, contains from msg ->
  replace_token fuel from to msg = NoFuel.
Proof.
  intros Ht. induction fuel as [|fuel IH]; intros msg Hm; [reflexivity|]. cbn [replace_token].
  destruct (find_sub from msg) as [n|] eqn:E; [|now apply find_sub_None in E]. apply IH.
  apply find_sub_Some in E. destruct E as (a & b & -> & <-).
  rewrite firstn_app_exact. eapply contains_trans; [exact Ht|]. eexists _, _. reflexivity.
Qed.

Lemma replace_NoFuel_cases fuel from to msg : find_sub from msg = None ->
  replace_token fuel from to msg = Ok msg \/ replace_token fuel from to msg = NoFuel.
Proof. intros H. destruct fuel; [now right|left]. now apply replace_absent. Qed.
