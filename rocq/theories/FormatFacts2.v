(** Facts about the help output: options and groups. *)

From Coq Require Import List Ascii String NArith ZArith Bool Arith Lia Permutation.
From Verif Require Import Base Errors Spec BaseFacts Values OptDesc Format SpecFormat FormatFacts.
Import ListNotations.

Set Implicit Arguments.

Local Open Scope Z_scope.

(** ** Lines *)

Lemma split_nl_lines s : forall cur, without c_nl cur -> lines_of (rev cur ++ s) (split_nl cur s).
Proof.
  induction s as [|c s IH]; intros cur W; cbn [split_nl].
  - split; [discriminate|]. split; [now rewrite app_nil_r|]. constructor; auto. intros I. apply in_rev in I. auto.
  - destruct (char_eqb_spec c c_nl) as [->|N].
    + destruct (IH [] (fun x => x)) as (A & B & C). cbn [rev app] in B. split; [discriminate|]. split.
      * destruct (split_nl [] s) as [|l ls] eqn:E; [easy|]. cbn [join]. rewrite B. reflexivity.
      * constructor; auto. intros I. apply in_rev in I. auto.
    + replace (rev cur ++ c :: s) with (rev (c :: cur) ++ s) by (cbn [rev]; rewrite <- app_assoc; reflexivity).
      apply IH. apply without_cons. auto.
Qed.

Lemma lines_of_fun s l1 l2 : lines_of s l1 -> lines_of s l2 -> l1 = l2.
Proof.
  intros (N1 & E1 & F1) (N2 & E2 & F2). rewrite E1 in E2. clear E1 s. revert l2 N2 E2 F2.
  induction l1 as [|a l1 IH]; intros l2 N2 E F2; [easy|]. clear N1.
  destruct l2 as [|b l2]; [easy|].
  inversion F1 as [|? ? Fa F1']; subst. inversion F2 as [|? ? Fb F2']; subst.
  assert (X : forall a b x y, without c_nl a -> without c_nl b -> a ++ c_nl :: x = b ++ c_nl :: y -> a = b /\ x = y).
  { clear. induction a as [|p a IH]; intros [|q b] x y Wa Wb E; cbn [app] in E.
    - injection E as ->. auto.
    - injection E as <- _. destruct Wb. now left.
    - injection E as -> _. destruct Wa. now left.
    - injection E as -> E. apply without_cons in Wa as [_ Wa]. apply without_cons in Wb as [_ Wb].
      destruct (IH _ _ _ Wa Wb E) as [-> ->]. auto. }
  destruct l1 as [|a2 l1], l2 as [|b2 l2].
  - cbn in E. congruence.
  - cbn [join] in E. subst a. destruct Fa. apply in_or_app. right. now left.
  - cbn [join] in E. subst b. destruct Fb. apply in_or_app. right. now left.
  - assert (E' : a ++ c_nl :: join [c_nl] (a2 :: l1) = b ++ c_nl :: join [c_nl] (b2 :: l2)) by exact E.
    apply X in E' as [-> E']; auto. f_equal. apply IH; auto; discriminate.
Qed.

Lemma lines_of_len s ls : lines_of s ls -> Forall (fun l => len l <= len s) ls.
Proof.
  intros (_ & E & _). subst s. induction ls as [|l ls IH]; auto.
  destruct ls as [|l2 ls].
  - constructor; auto. cbn. lia.
  - change (join [c_nl] (l :: l2 :: ls)) with (l ++ [c_nl] ++ join [c_nl] (l2 :: ls)). constructor.
    + rewrite !len_app. pose proof (len_nonneg [c_nl]). pose proof (len_nonneg (join [c_nl] (l2 :: ls))). lia.
    + eapply Forall_impl; [|exact IH]. cbn beta. intros x Hx. rewrite !len_app.
      pose proof (len_nonneg [c_nl]). pose proof (len_nonneg l). lia.
Qed.

(** ** Descriptions *)

Lemma format_paragraphs_iff pars width L out :
  0 <= width -> fits32 L -> Forall (fun p => fits32 (len p)) pars ->
  format_paragraphs false pars width L = Ok out <->
  exists texts, Forall2 (paragraph width L) pars texts /\ out = join (c_nl :: blanks width) texts.
Proof.
  intros Hw HL HF. revert out. induction HF as [|p pars Hp HF IH]; intros out; cbn [format_paragraphs].
  - split.
    + intros H. injection H as <-. exists []. split; auto.
    + intros (texts & F & ->). inversion F. reflexivity.
  - split.
    + intros H. apply bind_Ok in H as (t & Ht & H). apply bind_Ok in H as (r & Hr & H). injection H as <-.
      apply format_paragraph_sound in Ht; auto. apply IH in Hr as (texts & F & ->).
      exists (t :: texts). split; auto.
      destruct F; cbn [join]; rewrite ?app_nil_r; reflexivity.
    + intros (texts & F & ->). inversion F as [|? t ? texts' P F']; subst.
      destruct (format_paragraph_complete false HL Hp P) as (t' & P' & E).
      rewrite E, (paragraph_fun P' P). cbn [bind].
      assert (X : format_paragraphs false pars width L = Ok (join (c_nl :: blanks width) texts')) by (apply IH; eauto).
      rewrite X. cbn [bind]. f_equal. destruct F'; cbn [join]; rewrite ?app_nil_r; reflexivity.
Qed.

Lemma format_paragraphs_ndebug pars width L texts :
  0 <= width -> fits32 L -> Forall (fun p => fits32 (len p)) pars -> Forall2 (paragraph width L) pars texts ->
  format_paragraphs true pars width L = Ok (join (c_nl :: blanks width) texts).
Proof.
  intros Hw HL HF F. induction F as [|p t pars texts P F IH]; auto. cbn [format_paragraphs].
  inversion HF as [|? ? Hp HF']; subst.
  destruct (format_paragraph_complete true HL Hp P) as (t' & P' & E). rewrite E, (paragraph_fun P' P). cbn [bind].
  rewrite IH by auto. cbn [bind]. f_equal. destruct F; cbn [join]; rewrite ?app_nil_r; reflexivity.
Qed.

Lemma description_fits width L desc out : description width L desc out -> 0 <= width /\ width < L - 1.
Proof.
  intros (pars & texts & (N & _) & F & _). destruct F as [|p t pars texts [text hang lines U B W] F]; [easy|].
  apply untabbed_len in U. lia.
Qed.

Lemma format_description_iff desc width L out :
  0 <= width -> fits32 L -> fits32 (len desc) ->
  format_description false desc width L = Ok out <-> description width L desc out.
Proof.
  intros Hw HL Hd. unfold format_description, assert_.
  assert (LN : lines_of desc (split_nl [] desc)) by (apply (split_nl_lines desc (cur := [])); intros []).
  assert (FL : Forall (fun p => fits32 (len p)) (split_nl [] desc)).
  { eapply Forall_impl; [|exact (lines_of_len LN)]. cbn beta. intros l Hl. unfold fits32 in *. pose proof (len_nonneg l). lia. }
  split.
  - destruct (Z.ltb_spec 1 L); [|discriminate]. cbn [orb bind].
    destruct (Z.ltb_spec width (L - 1)); [|discriminate]. cbn [orb bind]. intros H1.
    apply format_paragraphs_iff in H1 as (texts & F & ->); auto.
    + exists (split_nl [] desc), texts. auto.
    + unfold fits32 in *. lia.
  - intros D. pose proof (description_fits D) as [_ Hlt].
    replace (1 <? L) with true by (symmetry; apply Z.ltb_lt; lia). cbn [orb bind].
    replace (width <? L - 1) with true by (symmetry; apply Z.ltb_lt; lia). cbn [orb bind].
    apply format_paragraphs_iff; auto; [unfold fits32 in *; lia|].
    destruct D as (pars & texts & LO & F & ->). rewrite (lines_of_fun LO LN) in F. eauto.
Qed.

Lemma format_description_ndebug desc width L out :
  fits32 L -> fits32 (len desc) -> description width L desc out -> format_description true desc width L = Ok out.
Proof.
  intros HL Hd D. unfold format_description, assert_.
  assert (LN : lines_of desc (split_nl [] desc)) by (apply (split_nl_lines desc (cur := [])); intros []).
  assert (FL : Forall (fun p => fits32 (len p)) (split_nl [] desc)).
  { eapply Forall_impl; [|exact (lines_of_len LN)]. cbn beta. intros l Hl. unfold fits32 in *. pose proof (len_nonneg l). lia. }
  pose proof (description_fits D) as [Hw Hlt].
  replace (1 <? L) with true by (symmetry; apply Z.ltb_lt; lia). cbn [orb bind].
  rewrite orb_true_r. cbn [bind].
  destruct D as (pars & texts & LO & F & ->). rewrite (lines_of_fun LO LN) in F.
  apply format_paragraphs_ndebug; auto. unfold fits32 in *. lia.
Qed.

Lemma lines_of_app s1 f1 o1 s2 f2 o2 :
  lines_of s1 (f1 :: o1) -> lines_of s2 (f2 :: o2) -> lines_of (s1 ++ c_nl :: s2) (f1 :: o1 ++ f2 :: o2).
Proof.
  intros (_ & E1 & F1) (_ & E2 & F2). split; [discriminate|]. split.
  - subst. clear F1 F2. revert f1. induction o1 as [|x o1 IH]; intros f1; [reflexivity|].
    change (join [c_nl] (f1 :: x :: o1)) with (f1 ++ [c_nl] ++ join [c_nl] (x :: o1)). rewrite <- !app_assoc, IH. reflexivity.
  - change (f1 :: o1 ++ f2 :: o2) with ((f1 :: o1) ++ f2 :: o2). now apply Forall_app.
Qed.

Lemma lines_of_prepend x s f o : without c_nl x -> lines_of s (f :: o) -> lines_of (x ++ s) ((x ++ f) :: o).
Proof.
  intros W (_ & E & F). split; [discriminate|]. split.
  - subst. apply join_cons_app.
  - inversion F; subst. constructor; auto. now apply without_app.
Qed.

Lemma description_lines column L desc text :
  description column L desc text ->
  exists first others, lines_of text (first :: others) /\ column + len first <= L - 1
    /\ Forall (fun l => len l <= L - 1 /\ exists l', l = blanks column ++ l') others.
Proof.
  intros D. pose proof (description_fits D) as [Hc Hlt].
  destruct D as (pars & texts & (N & _ & Fn) & F & ->).
  induction F as [|p t pars texts P F IH]; [easy|]. clear N. inversion Fn as [|? ? Np Fn']; subst.
  destruct (paragraph_lines P Np) as (f & o & A & B & C).
  destruct F as [|p2 t2 pars texts P2 F].
  - exists f, o. auto.
  - destruct IH as (f2 & o2 & A2 & B2 & C2); auto; [discriminate|].
    exists f, (o ++ (blanks column ++ f2) :: o2). split; [|split; auto].
    + change (join (c_nl :: blanks column) (t :: t2 :: texts))
        with (t ++ c_nl :: (blanks column ++ join (c_nl :: blanks column) (t2 :: texts))).
      apply lines_of_app; auto. apply lines_of_prepend; auto. apply blanks_without_nl.
    + apply Forall_app. split; auto. constructor; auto. split; [|eauto]. rewrite len_app, len_blanks by lia. lia.
Qed.

(** ** Options *)

Lemma format_name_iff d n : format_name d = Ok n <-> shown_name d n.
Proof.
  unfold format_name. split.
  - destruct (od_short d) as [|c s] eqn:Es; cbn [is_empty negb]; destruct (od_longs d) as [|l ls] eqn:El; intros H.
    + discriminate.
    + injection H as <-. econstructor 3; eauto.
    + assert (X : n = od_short d) by congruence. rewrite X. constructor 1; auto. congruence.
    + assert (X : n = od_short d ++ $" [ --" ++ l ++ $" ]") by congruence. rewrite X.
      econstructor 2; eauto. congruence.
  - intros [Hs Hl|l ls Hs Hl|l ls Hs Hl]; rewrite Hl.
    + apply is_empty_false in Hs. now rewrite Hs.
    + apply is_empty_false in Hs. now rewrite Hs.
    + now rewrite Hs.
Qed.

Lemma shown_name_fun d a b : shown_name d a -> shown_name d b -> a = b.
Proof. intros A B. apply format_name_iff in A, B. congruence. Qed.

Lemma format_parameter_eq d : format_parameter d = shown_parameter d.
Proof. unfold format_parameter, shown_parameter. destruct (vs_max (od_sem d) =? 0); reflexivity. Qed.

Lemma first_column_iff d col : first_column d = Ok col <-> first_col d col.
Proof.
  unfold first_column, first_col. rewrite format_parameter_eq. split.
  - intros H. apply bind_Ok in H as (n & Hn & H). injection H as <-. apply format_name_iff in Hn. eauto.
  - intros (n & Hn & ->). apply format_name_iff in Hn. rewrite Hn. reflexivity.
Qed.

Lemma first_col_fun d a b : first_col d a -> first_col d b -> a = b.
Proof. intros A B. apply first_column_iff in A, B. congruence. Qed.

Lemma shown_lines column L d text :
  shown column L d text -> (forall col, first_col d col -> without c_nl col) ->
  exists lines, lines_of text lines
    /\ Forall (fun l => first_col d l \/ len l <= L - 1) lines.
Proof.
  intros [col Hc E|col t Hc E Hl D|col t Hc E Hl D] Wc.
  - exists [col]. split; [split; [discriminate|split; auto]|]. constructor; auto.
  - destruct (description_lines D) as (f & o & A & B & C).
    exists ((col ++ blanks (column - len col) ++ f) :: o). split.
    + apply (lines_of_prepend (x := blanks (column - len col))) in A; [|apply blanks_without_nl].
      apply (lines_of_prepend (x := col)) in A; auto.
    + constructor; [right; rewrite !len_app, len_blanks by lia; lia|].
      eapply Forall_impl; [|exact C]. cbn beta. tauto.
  - destruct (description_lines D) as (f & o & A & B & C). pose proof (description_fits D).
    exists (col :: (blanks column ++ f) :: o). split.
    + apply (@lines_of_app col col [] (blanks column ++ t)); [split; [discriminate|split; auto]|].
      apply lines_of_prepend; auto. apply blanks_without_nl.
    + constructor; auto. constructor; [right; rewrite len_app, len_blanks by lia; lia|].
      eapply Forall_impl; [|exact C]. cbn beta. tauto.
Qed.

Lemma format_one_iff d width L out :
  0 <= width -> fits32 L -> fits32 (len (od_text d)) ->
  format_one false d width L = Ok out <-> shown width L d out.
Proof.
  intros Hw HL Hd. unfold format_one. split.
  - intros H. apply bind_Ok in H as (col & Hc & H). apply first_column_iff in Hc. fold (len col) in H.
    destruct (is_empty (od_text d)) eqn:E.
    + injection H as <-. apply is_empty_true in E. now constructor.
    + apply is_empty_false in E. apply bind_Ok in H as (t & Ht & H). injection H as <-.
      apply format_description_iff in Ht; auto.
      destruct (Z.leb_spec width (len col)); [apply shown_below|apply shown_beside]; auto.
  - intros [col Hc E|col t Hc E Hl D|col t Hc E Hl D]; apply first_column_iff in Hc; rewrite Hc; cbn [bind]; fold (len col).
    + now rewrite E.
    + apply is_empty_false in E. rewrite E. apply format_description_iff in D; auto. rewrite D. cbn [bind].
      destruct (Z.leb_spec width (len col)); [lia|reflexivity].
    + apply is_empty_false in E. rewrite E. apply format_description_iff in D; auto. rewrite D. cbn [bind].
      destruct (Z.leb_spec width (len col)); [reflexivity|lia].
Qed.

Lemma format_one_ndebug d width L out :
  fits32 L -> fits32 (len (od_text d)) -> shown width L d out -> format_one true d width L = Ok out.
Proof.
  intros HL Hd S. unfold format_one.
  destruct S as [col Hc E|col t Hc E Hl D|col t Hc E Hl D]; apply first_column_iff in Hc; rewrite Hc; cbn [bind]; fold (len col).
  - now rewrite E.
  - apply is_empty_false in E. rewrite E. apply format_description_ndebug in D; auto. rewrite D. cbn [bind].
    destruct (Z.leb_spec width (len col)); [lia|reflexivity].
  - apply is_empty_false in E. rewrite E. apply format_description_ndebug in D; auto. rewrite D. cbn [bind].
    destruct (Z.leb_spec width (len col)); [reflexivity|lia].
Qed.

(** ** Building trees *)

Inductive built : tree -> options_description -> Prop :=
| built_tree c L m items opts groups :
    m < Z.modulo (L - 1) 4294967296 -> built_items items opts groups -> built (Tree c L m items) (mk_ods c L m opts groups)
with built_items : list (option_description + tree) -> list (option_description * bool) -> list options_description -> Prop :=
| built_nil : built_items [] [] []
| built_option d items opts groups :
    built_items items opts groups -> built_items (inl d :: items) ((d, false) :: opts) groups
| built_group t g items opts groups :
    built t g -> built_items items opts groups ->
    built_items (inr t :: items) (map (fun d => (d, true)) (ods_list g) ++ opts) (g :: groups).

Scheme built_ind2 := Minimality for built Sort Prop
  with built_items_ind2 := Minimality for built_items Sort Prop.
Combined Scheme built_mut from built_ind2, built_items_ind2.

Definition tree_ind2 (P : tree -> Prop)
    (H : forall c L m items, Forall (fun i => match i with inl _ => True | inr t => P t end) items -> P (Tree c L m items)) :=
  fix F (t : tree) : P t :=
    match t with
    | Tree c L m items =>
        H c L m items ((fix go (is : list (option_description + tree)) : Forall (fun i => match i with inl _ => True | inr t => P t end) is :=
                    match is with
                    | [] => Forall_nil _
                    | inl d :: is' => @Forall_cons _ _ (inl d) is' I (go is')
                    | inr t :: is' => @Forall_cons _ _ (inr t) is' (F t) (go is')
                    end) items)
    end.

(** The inner loop of [build]. *)
Fixpoint add_items (ds : options_description) (items : list (option_description + tree)) : outcome options_description :=
  match items with
  | [] => Ok ds
  | inl d :: items' => add_items (ods_add ds d) items'
  | inr t :: items' => let* g := build t in add_items (ods_add_group ds g) items'
  end.

Lemma build_eq c L m items : build (Tree c L m items) = let* ds := new_options c L m in add_items ds items.
Proof. reflexivity. Qed.

Lemma add_loop_eq l : forall acc, add_loop acc l = acc ++ map (fun d => (d, true)) (map fst l).
Proof.
  induction l as [|[d b] l IH]; intros acc; cbn [add_loop map fst].
  - now rewrite app_nil_r.
  - rewrite IH, <- app_assoc. reflexivity.
Qed.

Lemma add_items_built c L m items :
  Forall (fun i => match i with inl _ => True | inr t => forall ods, build t = Ok ods -> built t ods end) items ->
  forall o0 g0 ods, add_items (mk_ods c L m o0 g0) items = Ok ods ->
  exists opts groups, built_items items opts groups /\ ods = mk_ods c L m (o0 ++ opts) (g0 ++ groups).
Proof.
  intros H. induction H as [|[d|t] items Hi H IH]; intros o0 g0 ods E; cbn [add_items] in E.
  - injection E as <-. exists [], []. rewrite !app_nil_r. split; auto. constructor.
  - apply IH in E as (opts & groups & B & ->). exists ((d, false) :: opts), groups. split; [now constructor|].
    f_equal. cbn. now rewrite <- app_assoc.
  - apply bind_Ok in E as (g & Hg & E). unfold ods_add_group in E. cbn in E. rewrite add_loop_eq in E.
    apply IH in E as (opts & groups & B & ->).
    exists (map (fun d => (d, true)) (ods_list g) ++ opts), (g :: groups). split; [constructor; auto|].
    f_equal; rewrite <- app_assoc; reflexivity.
Qed.

Lemma build_built t : forall ods, build t = Ok ods -> built t ods.
Proof.
  induction t as [c L m items IH] using tree_ind2. intros ods E. rewrite build_eq in E.
  apply bind_Ok in E as (ds & Hn & E). unfold new_options in Hn.
  destruct (Z.ltb_spec m ((L - 1) mod 4294967296)); [|discriminate]. injection Hn as <-.
  apply add_items_built in E as (opts & groups & B & ->); auto. now constructor.
Qed.

(** Conversely, building only fails in the assertion of the constructor. *)
Lemma build_ok t : Forall (fun t => tree_min t < (tree_length t - 1) mod 4294967296) (subtrees t) ->
  exists ods, build t = Ok ods.
Proof.
  induction t as [c L m items IH] using tree_ind2. intros F. rewrite build_eq. cbn [subtrees] in F.
  inversion F as [|? ? F1 F2]; subst. cbn in F1. unfold new_options. apply Z.ltb_lt in F1. rewrite F1. cbn [bind].
  generalize (mk_ods c L m [] []). clear F F1. induction items as [|[d|t] items IHi]; intros ds; cbn [add_items].
  - eauto.
  - inversion IH; subst. apply IHi; auto.
  - inversion IH as [|? ? It IH']; subst. cbn [flat_map] in F2. apply Forall_app in F2 as [Ft F2].
    destruct (It Ft) as [g ->]. cbn [bind]. apply IHi; auto.
Qed.

Lemma built_options :
  (forall t ods, built t ods -> ods_list ods = all_options t)
  /\ (forall items opts groups, built_items items opts groups ->
      map fst opts = flat_map (fun i => match i with inl d => [d] | inr t => all_options t end) items).
Proof.
  apply built_mut.
  - intros c L m items opts groups _ _ IH. exact IH.
  - reflexivity.
  - intros d items opts groups _ IH. cbn. now rewrite IH.
  - intros t g items opts groups _ IHt _ IH. rewrite map_app, IH, map_map. cbn [fst flat_map]. rewrite map_id, IHt. reflexivity.
Qed.

(** The options of the groups are those of the whole, each once. *)
Lemma flat_map_perm A B C (f : A -> list C) (g h : A -> list B) (k : C -> list B) l :
  Forall (fun a => Permutation (h a) (g a ++ flat_map k (f a))) l ->
  Permutation (flat_map h l) (flat_map g l ++ flat_map k (flat_map f l)).
Proof.
  induction 1 as [|a l Ha H IH]; auto. cbn [flat_map]. rewrite flat_map_app.
  rewrite Ha, IH, !app_assoc. apply Permutation_app_tail.
  rewrite <- !app_assoc. apply Permutation_app_head. apply Permutation_app_comm.
Qed.

Lemma sections_all t : Permutation (all_options t) (flat_map snd (sections t)).
Proof.
  induction t as [c L m items IH] using tree_ind2. cbn [all_options sections flat_map snd].
  apply flat_map_perm. eapply Forall_impl; [|exact IH]. intros [d|t] H.
  - rewrite app_nil_r. apply Permutation_refl.
  - exact H.
Qed.

(** ** Printing *)

Fixpoint print_all (ndebug : bool) (gs : list options_description) (width : Z) : outcome str :=
  match gs with
  | [] => Ok []
  | g :: gs' =>
      let* t := print ndebug g width in
      let* rest := print_all ndebug gs' width in
      Ok ([c_nl] ++ t ++ rest)
  end.

Lemma print_eq ndebug c L m opts groups width :
  width <> 0 ->
  print ndebug (mk_ods c L m opts groups) width =
  let* body := print_options ndebug opts width L in
  let* tail := print_all ndebug groups width in
  Ok ((if is_empty c then [] else c ++ [":"%char; c_nl]) ++ body ++ tail).
Proof.
  intros N. cbn [print]. apply Z.eqb_neq in N. rewrite N. cbn [bind].
  destruct (print_options ndebug opts width L) as [body| | |]; auto. cbn [bind].
  replace ((fix print_groups (gs : list options_description) : outcome str :=
      match gs with
      | [] => Ok []
      | g :: gs' => let* t := print ndebug g width in let* rest := print_groups gs' in Ok ([c_nl] ++ t ++ rest)
      end) groups) with (print_all ndebug groups width); auto.
  induction groups as [|g gs IH]; auto. cbn [print_all]. rewrite IH. reflexivity.
Qed.

Lemma heading_eq c : (if is_empty c then [] else c ++ [":"%char; c_nl]) = heading c.
Proof. destruct c; reflexivity. Qed.

Lemma print_options_grouped ndebug ds opts width L :
  print_options ndebug (map (fun d => (d, true)) ds ++ opts) width L = print_options ndebug opts width L.
Proof. induction ds; auto. Qed.

Definition direct (items : list (option_description + tree)) : list option_description :=
  flat_map (fun i => match i with inl d => [d] | inr _ => [] end) items.
Definition group_sections (items : list (option_description + tree)) : list section :=
  flat_map (fun i => match i with inl _ => [] | inr t => sections t end) items.

Definition entry_text (texts : list str) : str := List.concat (map (fun t => t ++ [c_nl]) texts).

(** What printing without NDEBUG does for the options, *)
Lemma print_options_iff items opts groups width L :
  built_items items opts groups -> 0 <= width -> fits32 L -> Forall sized_option (direct items) ->
  forall out, print_options false opts width L = Ok out <->
  exists texts, Forall2 (shown width L) (direct items) texts /\ out = entry_text texts.
Proof.
  intros B Hw HL. induction B as [|d items opts groups B IH|t g items opts groups _ B IH]; intros S out.
  - cbn. split.
    + intros H. injection H as <-. exists []. auto.
    + intros (texts & F & ->). inversion F. reflexivity.
  - cbn [direct flat_map] in *. inversion S as [|? ? [Sd _] S']; subst. cbn [print_options]. split.
    + intros H. apply bind_Ok in H as (x & Hx & H). apply bind_Ok in H as (r & Hr & H). injection H as <-.
      apply format_one_iff in Hx; auto. apply IH in Hr as (texts & F & ->); auto.
      exists (x :: texts). split; [now constructor|]. cbn. rewrite <- app_assoc. reflexivity.
    + intros (texts & F & ->). inversion F as [|? x ? texts' Fx F']; subst.
      apply format_one_iff in Fx; auto. rewrite Fx. cbn [bind].
      assert (X : print_options false opts width L = Ok (entry_text texts')) by (apply IH; eauto).
      rewrite X. cbn [bind]. f_equal. unfold entry_text. cbn. rewrite <- app_assoc. reflexivity.
  - rewrite print_options_grouped. apply IH. exact S.
Qed.

Lemma print_options_ndebug items opts groups width L :
  built_items items opts groups -> fits32 L -> Forall sized_option (direct items) ->
  forall texts, Forall2 (shown width L) (direct items) texts ->
  print_options true opts width L = Ok (entry_text texts).
Proof.
  intros B HL. induction B as [|d items opts groups B IH|t g items opts groups _ B IH]; intros S texts F.
  - inversion F. reflexivity.
  - cbn [direct flat_map] in *. inversion S as [|? ? [Sd _] S']; subst. cbn [print_options].
    inversion F as [|? x ? texts' Fx F']; subst. apply format_one_ndebug in Fx; auto. rewrite Fx. cbn [bind].
    erewrite IH; eauto. cbn [bind]. f_equal. unfold entry_text. cbn. rewrite <- app_assoc. reflexivity.
  - rewrite print_options_grouped. apply IH; auto.
Qed.

Definition sections_text (texts : list str) : str := List.concat (map (cons c_nl) texts).

Lemma join_sections t texts : join [c_nl] (t :: texts) = t ++ sections_text texts.
Proof.
  revert t. induction texts as [|u texts IH]; intros t.
  - cbn. now rewrite app_nil_r.
  - change (join [c_nl] (t :: u :: texts)) with (t ++ [c_nl] ++ join [c_nl] (u :: texts)). rewrite IH. reflexivity.
Qed.

Lemma sections_text_app a b : sections_text (a ++ b) = sections_text a ++ sections_text b.
Proof. unfold sections_text. rewrite map_app, concat_app. reflexivity. Qed.

Definition tree_sized (t : tree) : Prop :=
  Forall (fun t => fits32 (tree_length t)) (subtrees t) /\ Forall sized_option (all_options t).
Definition items_sized (items : list (option_description + tree)) : Prop :=
  Forall (fun i => match i with inl d => sized_option d | inr t => tree_sized t end) items.

Lemma tree_items_sized c L m items : tree_sized (Tree c L m items) -> fits32 L /\ items_sized items.
Proof.
  intros [A B]. cbn [subtrees all_options] in *. inversion A as [|? ? A1 A2]; subst. split; auto. clear A A1.
  induction items as [|[d|t] items IH]; [constructor| |]; cbn [flat_map app] in *.
  - inversion B as [|? ? B1 B2]; subst. constructor; auto. apply IH; auto.
  - apply Forall_app in A2 as [A2 A3]. apply Forall_app in B as [B1 B2]. constructor.
    + split; auto.
    + apply IH; auto.
Qed.

Lemma items_sized_direct items : items_sized items -> Forall sized_option (direct items).
Proof.
  induction 1 as [|[d|t] items H F IH]; cbn; auto.
Qed.

Lemma sized_tree t : sized t -> tree_sized t.
Proof.
  intros [A B]. split; auto. eapply Forall_impl; [|exact A]. cbn beta. tauto.
Qed.

(** and for trees. *)
Lemma print_iff width : 0 < width ->
  (forall t ods, built t ods -> tree_sized t -> forall out,
     print false ods width = Ok out <-> help width t out)
  /\ (forall items opts groups, built_items items opts groups -> items_sized items -> forall out,
     print_all false groups width = Ok out <->
     exists texts, Forall2 (shown_section width) (group_sections items) texts /\ out = sections_text texts).
Proof.
  intros Hw. apply built_mut.
  - intros c L m items opts groups _ B IH S out. apply tree_items_sized in S as [HL S].
    rewrite print_eq by lia. rewrite heading_eq. unfold help. cbn [sections]. fold (direct items) (group_sections items). split.
    + intros H. apply bind_Ok in H as (body & Hb & H). apply bind_Ok in H as (tail & Ht & H). injection H as <-.
      apply (print_options_iff (width := width) (L := L) B) in Hb as (texts & F & ->); [|lia|auto|now apply items_sized_direct].
      apply IH in Ht as (texts' & F' & ->); auto.
      exists ((heading c ++ entry_text texts) :: texts'). split.
      * constructor; auto. exists texts. auto.
      * rewrite join_sections, <- app_assoc. reflexivity.
    + intros (ts & F & ->). inversion F as [|? x ? texts' Sx F']; subst. destruct Sx as (texts & Fx & ->).
      fold (entry_text texts).
      assert (X1 : print_options false opts width L = Ok (entry_text texts)).
      { eapply (print_options_iff (width := width) (L := L) B); eauto; [lia|now apply items_sized_direct]. }
      assert (X2 : print_all false groups width = Ok (sections_text texts')) by (apply IH; eauto).
      rewrite X1, X2. cbn [bind]. rewrite join_sections, <- app_assoc. reflexivity.
  - intros _ out. cbn. split.
    + intros H. injection H as <-. exists []. auto.
    + intros (texts & F & ->). inversion F. reflexivity.
  - intros d items opts groups _ IH S out. inversion S; subst. apply IH; auto.
  - intros t g items opts groups _ IHt _ IH S out. inversion S as [|? ? St S']; subst.
    cbn [print_all group_sections flat_map]. fold (group_sections items). split.
    + intros H. apply bind_Ok in H as (x & Hx & H). apply bind_Ok in H as (r & Hr & H). injection H as <-.
      apply IHt in Hx as (tx & Fx & ->); auto. apply IH in Hr as (tr & Fr & ->); auto.
      exists (tx ++ tr). split; [now apply Forall2_app|]. rewrite sections_text_app.
      change ([c_nl] ++ join [c_nl] tx ++ sections_text tr) with ((c_nl :: join [c_nl] tx) ++ sections_text tr). f_equal.
      destruct tx as [|t1 tx].
      * inversion Fx. destruct t; discriminate.
      * rewrite join_sections. reflexivity.
    + intros (texts & F & ->). apply Forall2_app_inv_l in F as (tx & tr & Fx & Fr & ->).
      assert (X1 : print false g width = Ok (join [c_nl] tx)) by (apply IHt; auto; exists tx; auto).
      assert (X2 : print_all false groups width = Ok (sections_text tr)) by (apply IH; eauto).
      rewrite X1, X2. cbn [bind]. f_equal. rewrite sections_text_app.
      destruct tx as [|t1 tx].
      * inversion Fx. destruct t; discriminate.
      * rewrite join_sections. cbn. rewrite <- !app_assoc. reflexivity.
Qed.

Lemma print_ndebug width : 0 < width ->
  (forall t ods, built t ods -> tree_sized t -> forall out, help width t out -> print true ods width = Ok out)
  /\ (forall items opts groups, built_items items opts groups -> items_sized items -> forall texts,
     Forall2 (shown_section width) (group_sections items) texts -> print_all true groups width = Ok (sections_text texts)).
Proof.
  intros Hw. apply built_mut.
  - intros c L m items opts groups _ B IH S out (ts & F & ->). apply tree_items_sized in S as [HL S].
    rewrite print_eq by lia. rewrite heading_eq. cbn [sections] in F. fold (direct items) (group_sections items) in F.
    inversion F as [|? x ? texts' Sx F']; subst. destruct Sx as (texts & Fx & ->). fold (entry_text texts).
    rewrite (print_options_ndebug (width := width) (L := L) B HL (items_sized_direct S) Fx), (IH S _ F').
    cbn [bind]. rewrite join_sections, <- app_assoc. reflexivity.
  - intros _ texts F. inversion F. reflexivity.
  - intros d items opts groups _ IH S texts F. inversion S; subst. apply IH; auto.
  - intros t g items opts groups _ IHt _ IH S texts F. inversion S as [|? ? St S']; subst.
    cbn [print_all group_sections flat_map] in *. fold (group_sections items) in F.
    apply Forall2_app_inv_l in F as (tx & tr & Fx & Fr & ->).
    rewrite (IHt St (join [c_nl] tx)) by (exists tx; auto). rewrite (IH S' _ Fr). cbn [bind]. f_equal. rewrite sections_text_app.
    destruct tx as [|t1 tx].
    + inversion Fx. destruct t; discriminate.
    + rewrite join_sections. cbn. rewrite <- !app_assoc. reflexivity.
Qed.

(** ** The default column *)

Lemma max_column_ok ds : forall w, Forall (fun d => exists col, first_col d col) ds -> exists r, max_column w ds = Ok r.
Proof.
  induction ds as [|d ds IH]; intros w F; cbn [max_column]; eauto.
  inversion F as [|? ? [col Hc] F']; subst. apply first_column_iff in Hc. rewrite Hc. cbn [bind]. apply IH; auto.
Qed.

Lemma max_column_spec ds : forall w r, Forall (fun d => forall col, first_col d col -> fits32 (len col)) ds ->
  max_column w ds = Ok r ->
  w <= r /\ (forall d col, In d ds -> first_col d col -> len col <= r)
  /\ (r = w \/ exists d col, In d ds /\ first_col d col /\ r = len col).
Proof.
  induction ds as [|d ds IH]; intros w r F H; cbn [max_column] in H.
  - injection H as <-. split; [lia|]. split; [intros ? ? []|auto].
  - inversion F as [|? ? Fd F']; subst. apply bind_Ok in H as (col & Hc & H). apply first_column_iff in Hc.
    fold (len col) in H. rewrite Z.mod_small in H by (apply Fd; auto).
    apply IH in H as (A & B & C); auto. split; [lia|]. split.
    + intros d' col' [<-|I] Hc'; eauto. rewrite (first_col_fun Hc' Hc). lia.
    + destruct C as [C|(d' & col' & I & Hc' & ->)].
      * destruct (Z.max_spec w (len col)) as [[_ E]|[_ E]]; rewrite E in C; auto.
        right. exists d, col. repeat split; auto. now left.
      * right. exists d', col'. repeat split; auto. now right.
Qed.

Fixpoint group_widths (w : Z) (gs : list options_description) : outcome Z :=
  match gs with
  | [] => Ok w
  | g :: gs' => let* wg := get_option_column_width g in group_widths (Z.max w wg) gs'
  end.

Lemma width_eq c L m opts groups :
  get_option_column_width (mk_ods c L m opts groups) =
  let* w := max_column 23 (map fst opts) in
  let* w := group_widths w groups in
  Ok (Z.modulo (Z.min w (usub (usub L m) 1) + 1) 4294967296).
Proof.
  reflexivity.
Qed.

Fixpoint depths (items : list (option_description + tree)) : Z :=
  match items with
  | [] => 0
  | inl _ :: items' => depths items'
  | inr t :: items' => Z.max (1 + depth t) (depths items')
  end.

Lemma depth_eq c L m items : depth (Tree c L m items) = depths items.
Proof. reflexivity. Qed.

Lemma depth_nonneg t : 0 <= depth t.
Proof.
  induction t as [c L m items IH] using tree_ind2. rewrite depth_eq.
  induction IH as [|[d|t] items H F IH]; cbn [depths]; lia.
Qed.

Lemma depths_nonneg items : 0 <= depths items.
Proof. pose proof (depth_nonneg (Tree [] 0 0 items)) as H. rewrite depth_eq in H. exact H. Qed.

Definition items_sane (items : list (option_description + tree)) : Prop :=
  Forall (fun i => match i with inl _ => True | inr t => sane t end) items.

Lemma sane_items c L m items : sane (Tree c L m items) -> 0 <= m /\ m + 1 < L < 4294967296 /\ items_sane items.
Proof.
  intros H. unfold sane in H. cbn [subtrees] in H. inversion H as [|? ? [A1 A2] A]; subst. cbn in A1, A2.
  split; auto. split; auto. clear - A. induction items as [|[d|t] items IH]; constructor; cbn [flat_map app] in *; auto.
  - apply IH. exact A.
  - apply Forall_app in A as [A _]. exact A.
  - apply Forall_app in A as [_ A]. apply IH. exact A.
Qed.

Lemma width_spec :
  (forall t ods, built t ods -> sane t -> tree_sized t -> forall W, get_option_column_width ods = Ok W -> default_column t W)
  /\ (forall items opts groups, built_items items opts groups -> items_sane items -> items_sized items ->
      forall w r, group_widths w groups = Ok r ->
      w <= r /\ (r = w \/ r <= 23 + depths items
        \/ exists d col, In d (flat_map (fun i => match i with inl d => [d] | inr t => all_options t end) items)
             /\ first_col d col /\ r <= len col + depths items)).
Proof.
  apply built_mut.
  - intros c L m items opts groups _ B IH Sa St W H.
    pose proof (sane_items Sa) as (Hm & HL & Sa'). pose proof (tree_items_sized St) as [_ St'].
    rewrite width_eq in H. apply bind_Ok in H as (w & Hw & H). apply bind_Ok in H as (r & Hr & H). injection H as <-.
    assert (EO : map fst opts = flat_map (fun i => match i with inl d => [d] | inr t => all_options t end) items)
      by (eapply (proj2 built_options); eauto).
    rewrite EO in Hw. destruct St as [_ St]. cbn [all_options] in St.
    apply max_column_spec in Hw as (A & Bc & C); [|eapply Forall_impl; [|exact St]; intros ? [_ X]; exact X].
    destruct (IH Sa' St' w r Hr) as (D & E).
    unfold usub. rewrite (Z.mod_small (L - m)) by lia. rewrite (Z.mod_small (L - m - 1)) by lia.
    rewrite Z.mod_small by lia. pose proof (depths_nonneg items) as Dn.
    constructor; rewrite ?depth_eq; cbn [tree_length tree_min all_options].
    + lia.
    + destruct (Z.min_spec r (L - m - 1)) as [[Hlt ->]|[Hge ->]]; [right|left; lia].
      split; [lia|]. intros d col I Hc. specialize (Bc _ _ I Hc). lia.
    + destruct E as [->|[E|(d & col & I & Hc & E)]].
      * destruct C as [->|(d & col & I & Hc & ->)]; [left; lia|]. right. exists d, col. repeat split; auto. lia.
      * left. lia.
      * right. exists d, col. repeat split; auto. lia.
    + lia.
  - intros _ _ w r H. cbn in H. injection H as <-. split; [lia|auto].
  - intros d items opts groups _ IH Sa St w r H. inversion Sa; subst. inversion St; subst.
    destruct (IH H3 H5 w r H) as (A & [B|[B|(d' & col & I & Hc & B)]]); split; auto; cbn [depths flat_map app].
    right. right. exists d', col. repeat split; auto. now right.
  - intros t g items opts groups _ IHt _ IH Sa St w r H. inversion Sa as [|? ? Sat Sa']; subst. inversion St as [|? ? Stt St']; subst.
    cbn [group_widths] in H. apply bind_Ok in H as (wg & Hg & H).
    destruct (IHt Sat Stt wg Hg) as [_ _ Nw _].
    destruct (IH Sa' St' _ _ H) as (A & B). split; [lia|]. cbn [depths flat_map]. pose proof (depth_nonneg t).
    destruct B as [->|[B|(d' & col & I & Hc & B)]].
    + destruct (Z.max_spec w wg) as [[Hlt E]|[Hge E]]; rewrite E; auto. right.
      destruct Nw as [Nw|(d' & col & I & Hc & Nw)]; [left; lia|].
      right. exists d', col. split; [apply in_or_app; auto|]. split; auto. lia.
    + right. left. lia.
    + right. right. exists d', col. split; [apply in_or_app; auto|]. split; auto. lia.
Qed.

Lemma width_ok :
  (forall t ods, built t ods -> Forall (fun d => exists col, first_col d col) (all_options t) ->
     exists W, get_option_column_width ods = Ok W)
  /\ (forall items opts groups, built_items items opts groups ->
      Forall (fun d => exists col, first_col d col) (flat_map (fun i => match i with inl d => [d] | inr t => all_options t end) items) ->
      forall w, exists r, group_widths w groups = Ok r).
Proof.
  apply built_mut.
  - intros c L m items opts groups _ B IH F. rewrite width_eq.
    assert (EO : map fst opts = flat_map (fun i => match i with inl d => [d] | inr t => all_options t end) items)
      by (eapply (proj2 built_options); eauto).
    rewrite EO. cbn [all_options] in F. destruct (max_column_ok 23 F) as [w ->]. cbn [bind].
    destruct (IH F w) as [r ->]. cbn [bind]. eauto.
  - intros _ w. cbn. eauto.
  - intros d items opts groups _ IH F w. inversion F; subst. auto.
  - intros t g items opts groups _ IHt _ IH F w. cbn [flat_map] in F. apply Forall_app in F as [F1 F2].
    cbn [group_widths]. destruct (IHt F1) as [wg ->]. cbn [bind]. auto.
Qed.

Lemma print_default ndebug ods W :
  get_option_column_width ods = Ok W -> W <> 0 -> print ndebug ods 0 = print ndebug ods W.
Proof.
  destruct ods as [c L m opts groups]. intros H N. cbn [print]. cbn [Z.eqb]. rewrite H. cbn [bind].
  apply Z.eqb_neq in N. rewrite N. reflexivity.
Qed.

(** ** When printing succeeds *)

Lemma named_first_col d : od_short d <> [] \/ od_longs d <> [] -> exists col, first_col d col.
Proof.
  intros H. assert (exists n, shown_name d n) as [n Hn].
  { destruct (od_short d) as [|c s] eqn:Es.
    - destruct (od_longs d) as [|l ls] eqn:El; [tauto|]. eexists. eapply shown_long; eauto.
    - destruct (od_longs d) as [|l ls] eqn:El; eexists.
      + apply shown_short; auto. congruence.
      + eapply shown_both; eauto. congruence. }
  eexists. exists n. split; eauto.
Qed.

Lemma tidy_shown W L d :
  0 <= W -> W < L - 1 -> fits32 L -> sized_option d -> tidy (L - 1 - W) d -> exists text, shown W L d text.
Proof.
  intros HW HLt HL [Sd _] [Nm Td]. destruct (named_first_col _ Nm) as [col Hc].
  destruct (od_text d) as [|c0 s0] eqn:Et. { eexists. apply shown_undescribed; eauto. }
  assert (Dn : od_text d <> []) by congruence. rewrite <- Et in *. clear Et.
  assert (LN : lines_of (od_text d) (split_nl [] (od_text d))) by (apply (split_nl_lines (od_text d) (cur := [])); intros []).
  pose proof (lines_of_len LN) as FL. pose proof (Td _ LN) as FT.
  assert (exists texts, Forall2 (paragraph W (L - 1)) (split_nl [] (od_text d)) texts) as [texts F].
  { clear LN. revert FL FT. generalize (split_nl [] (od_text d)). intros pars FL FT.
    induction pars as [|p pars IH]; [exists []; constructor|].
    inversion FL; subst. inversion FT as [|? ? (text & hang & U & Hh) FT']; subst.
    destruct IH as [texts F]; auto. pose proof (untabbed_len U).
    destruct (@format_paragraph_spec false p text hang W (L - 1)) as (lines & Wr & _); auto; try lia.
    { unfold fits32 in *. lia. } { unfold fits32 in *. pose proof (len_nonneg p). lia. }
    exists (join (c_nl :: blanks (W + hang)) lines :: texts). constructor; auto. econstructor; eauto. lia. }
  assert (D : description W L (od_text d) (join (c_nl :: blanks W) texts)) by (exists (split_nl [] (od_text d)), texts; auto).
  destruct (Z_lt_le_dec (len col) W); eexists; [eapply shown_beside|eapply shown_below]; eauto.
Qed.

Lemma tidy_help W t :
  0 < W -> sized t ->
  Forall (fun s => W < section_length s - 1 /\ Forall (tidy (section_length s - 1 - W)) (snd s)) (sections t) ->
  exists text, help W t text.
Proof.
  intros HW S F.
  assert (A : Forall (fun s => fits32 (section_length s) /\ Forall sized_option (snd s)) (sections t)).
  { apply sized_tree in S. clear F. revert S. induction t as [c L m items IH] using tree_ind2. intros S.
    apply tree_items_sized in S as [HL S]. cbn [sections]. constructor.
    - split; auto. apply items_sized_direct. exact S.
    - clear HL. induction IH as [|[d|t] items Hi IH' IHi]; cbn [flat_map]; [constructor| |]; inversion S; subst.
      + apply IHi. auto.
      + apply Forall_app. split; auto. }
  assert (exists texts, Forall2 (shown_section W) (sections t) texts) as [texts Ft].
  { revert F A. generalize (sections t). intros ss F A. induction ss as [|[[c L] ds] ss IH]; [exists []; constructor|].
    inversion F as [|? ? [F1 F2] F']; subst. inversion A as [|? ? [A1 A2] A']; subst. cbn [section_length fst snd] in *.
    destruct (IH F' A') as [texts Ft].
    assert (exists es, Forall2 (shown W L) ds es) as [es Fe].
    { clear - F1 F2 A1 A2 HW. induction ds as [|d ds IH]; [exists []; constructor|].
      inversion F2; subst. inversion A2; subst. destruct IH as [es Fe]; auto.
      destruct (@tidy_shown W L d) as [x Hx]; auto; [lia|]. exists (x :: es). auto. }
    eexists (_ :: texts). constructor; auto. exists es. eauto. }
  eexists. exists texts. eauto.
Qed.

Lemma sections_lengths t P : Forall P (map tree_length (subtrees t)) -> Forall (fun s => P (section_length s)) (sections t).
Proof.
  induction t as [c L m items IH] using tree_ind2. cbn [subtrees sections map]. intros F. inversion F as [|? ? F1 F2]; subst.
  constructor; auto. clear F F1. induction IH as [|[d|t] items Hi IH' IHi]; cbn [flat_map] in *; auto.
  - rewrite map_app in F2. apply Forall_app in F2 as [Fa Fb]. apply Forall_app. auto.
Qed.

Lemma tidy_weaken a b d : a <= b -> tidy a d -> tidy b d.
Proof.
  intros H [A B]. split; auto. intros pars Hp. eapply Forall_impl; [|exact (B pars Hp)].
  intros p (text & hang & U & Hh). exists text, hang. split; auto. lia.
Qed.

Lemma print_safe ndebug t ods :
  build t = Ok ods -> sized t -> sane t ->
  2 <= tree_min t -> Forall (fun g => tree_length t <= tree_length g) (subtrees t) ->
  Forall (tidy (tree_min t - 1)) (all_options t) ->
  exists W text, default_column t W /\ help W t text /\ print ndebug ods 0 = Ok text.
Proof.
  intros B S Sa Hm Hg Ht. apply build_built in B. pose proof (sized_tree S) as St.
  destruct (proj1 width_ok _ _ B) as [W HW].
  { eapply Forall_impl; [|exact Ht]. intros d [Nm _]. now apply named_first_col. }
  pose proof (proj1 width_spec _ _ B Sa St W HW) as D. destruct D as [D1 D2 D3 D4].
  destruct (@tidy_help W t D4 S) as [text H].
  { assert (A1 : Forall (fun s => tree_length t <= section_length s) (sections t)).
    { apply (@sections_lengths t (fun l => tree_length t <= l)). rewrite Forall_map. exact Hg. }
    assert (A2 : Forall (fun s : section => Forall (tidy (tree_min t - 1)) (snd s)) (sections t)).
    { apply Forall_forall. intros s Is. apply Forall_forall. intros d Id.
      rewrite Forall_forall in Ht. apply Ht.
      eapply Permutation_in; [symmetry; apply sections_all|]. apply in_flat_map. eauto. }
    eapply Forall_impl; [|exact (Forall_and A1 A2)]. cbn beta. intros s [X Y]. split; [lia|].
    eapply Forall_impl; [|exact Y]. intros d. apply tidy_weaken. lia. }
  exists W, text. split; [constructor; auto|]. split; auto.
  rewrite (print_default ndebug ods HW) by lia.
  destruct ndebug.
  - apply (proj1 (print_ndebug D4) _ _ B St); auto.
  - apply (proj1 (print_iff D4) _ _ B St); auto.
Qed.
