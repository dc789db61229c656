(** Proofs for C112: running out of memory while a description is built. *)

From Coq Require Import List Ascii String NArith ZArith Bool Arith Lia.
From Verif Require Import Base Errors BaseFacts Values OptDesc Format OutFacts BuildMemory SpecBuildMemory.
Import ListNotations.

Fixpoint raw_ind2 (P : raw_description -> Prop)
    (H : forall c L m opts bs groups, Forall P groups -> P (mk_raw c L m opts bs groups)) (r : raw_description) : P r :=
  match r with
  | mk_raw c L m opts bs groups =>
      H c L m opts bs groups
        ((fix go (gs : list raw_description) : Forall P gs :=
            match gs with [] => Forall_nil _ | g :: gs' => @Forall_cons _ _ g gs' (@raw_ind2 P H g) (go gs') end) groups)
  end.

(** Adding *)
Lemma loop_eq ds : forall r,
  raw_add_loop r ds = mk_raw (rw_caption r) (rw_line_length r) (rw_min_description_length r) (rw_options r ++ ds)
    (rw_belongs r ++ map (fun _ => true) ds) (rw_groups r).
Proof.
  induction ds as [|d ds IH]; intros r; cbn [raw_add_loop map].
  - rewrite !app_nil_r. now destruct r.
  - rewrite IH. unfold set_back, raw_add, push_belongs, push_option.
    cbn [rw_caption rw_line_length rw_min_description_length rw_options rw_belongs rw_groups].
    rewrite removelast_last, <- !app_assoc. reflexivity.
Qed.

Lemma vectors_add od d : vectors_of (ods_add od d) = raw_add (vectors_of od) d.
Proof. destruct od. cbn. now rewrite !map_app. Qed.

Lemma vectors_loop l : forall acc, map fst (add_loop acc l) = map fst acc ++ map fst l
  /\ map snd (add_loop acc l) = map snd acc ++ map (fun _ => true) (map fst l).
Proof.
  induction l as [|[d b] l IH]; intros acc; cbn [add_loop map fst].
  - now rewrite !app_nil_r.
  - destruct (IH (acc ++ [(d, true)])) as [-> ->]. rewrite !map_app, <- !app_assoc. auto.
Qed.

Lemma vectors_add_group od g : vectors_of (ods_add_group od g) = raw_add_group (vectors_of od) (vectors_of g).
Proof.
  destruct od as [c L m opts groups]. unfold raw_add_group. rewrite loop_eq. unfold ods_add_group. cbn.
  destruct (vectors_loop (ods_options g) opts) as [-> ->]. rewrite map_app. destruct g. reflexivity.
Qed.

(** Printing *)
Definition raw_group_widths := fix group_widths (w : Z) (gs : list raw_description) : outcome Z :=
  match gs with
  | [] => Ok w
  | g :: gs' => let* wg := raw_column_width g in group_widths (Z.max w wg) gs'
  end.
Definition raw_print_groups (nd : bool) (width : Z) := fix print_groups (gs : list raw_description) : outcome str :=
  match gs with
  | [] => Ok []
  | g :: gs' => let* t := raw_print nd g width in let* rest := print_groups gs' in Ok ([c_nl] ++ t ++ rest)
  end.
Lemma raw_width_eq c L m opts bs groups : raw_column_width (mk_raw c L m opts bs groups)
  = let* w := max_column 23 opts in let* w := raw_group_widths w groups in
    Ok (Z.modulo (Z.min w (usub (usub L m) 1) + 1) 4294967296).
Proof. reflexivity. Qed.
Lemma raw_print_eq nd c L m opts bs groups width : raw_print nd (mk_raw c L m opts bs groups) width
  = let* width := if Z.eqb width 0 then raw_column_width (mk_raw c L m opts bs groups) else Ok width in
    let* body := raw_print_options nd opts bs width L in
    let* tail := raw_print_groups nd width groups in
    Ok ((if is_empty c then [] else c ++ [":"%char; c_nl]) ++ body ++ tail).
Proof. reflexivity. Qed.

Lemma vectors_width od : raw_column_width (vectors_of od) = get_option_column_width od.
Proof.
  induction od as [c L m opts groups IH] using ods_ind2. cbn [vectors_of get_option_column_width]. rewrite raw_width_eq.
  destruct (max_column 23 (map fst opts)) as [w|e|u|]; cbn [bind]; try reflexivity.
  match goal with |- bind ?a _ = bind ?b _ => assert (E : a = b); [|now rewrite E] end.
  revert w. induction IH as [|g gs Hg _ IHgs]; intros w; cbn [map raw_group_widths]; [reflexivity|].
  rewrite Hg. destruct (get_option_column_width g); cbn [bind]; auto.
Qed.

Lemma vectors_print_options nd width L opts :
  raw_print_options nd (map fst opts) (map snd opts) width L = print_options nd opts width L.
Proof.
  induction opts as [|[d []] opts IH]; cbn [map fst snd raw_print_options print_options]; [reflexivity|exact IH|].
  now rewrite IH.
Qed.

Lemma vectors_print nd od : forall width, raw_print nd (vectors_of od) width = print nd od width.
Proof.
  induction od as [c L m opts groups IH] using ods_ind2. intros width.
  assert (Ew : raw_column_width (vectors_of (mk_ods c L m opts groups)) = get_option_column_width (mk_ods c L m opts groups))
    by apply vectors_width.
  cbn [vectors_of] in *. rewrite raw_print_eq, Ew. cbn [print].
  destruct (if (width =? 0)%Z then _ else _) as [w|e|u|]; cbn [bind]; try reflexivity.
  rewrite vectors_print_options. destruct (print_options nd opts w L) as [t|e|u|]; cbn [bind]; try reflexivity.
  match goal with |- bind ?a _ = bind ?b _ => assert (E : a = b); [|now rewrite E] end.
  clear Ew. induction IH as [|g gs Hg _ IHgs]; cbn [map raw_print_groups]; [reflexivity|].
  rewrite Hg. destruct (print nd g w); cbn [bind]; [|reflexivity..]. now rewrite IHgs.
Qed.

(** No more flags than options. *)
Fixpoint enough (r : raw_description) : Prop :=
  match r with
  | mk_raw _ _ _ opts bs groups => List.length bs <= List.length opts
      /\ (fix go (gs : list raw_description) : Prop := match gs with [] => True | g :: gs' => enough g /\ go gs' end) groups
  end.
Definition all_enough := fix go (gs : list raw_description) : Prop := match gs with [] => True | g :: gs' => enough g /\ go gs' end.
Lemma enough_eq r : enough r <-> List.length (rw_belongs r) <= List.length (rw_options r) /\ all_enough (rw_groups r).
Proof. destruct r. reflexivity. Qed.
Lemma all_enough_app l g : all_enough l -> enough g -> all_enough (l ++ [g]).
Proof. induction l as [|x l IH]; cbn; [tauto|]. intros [H1 H2] H3. auto. Qed.

Lemma loop_enough r g ds : enough r -> enough g -> enough (raw_add_loop (push_group r g) ds).
Proof.
  rewrite !enough_eq. intros [H1 H2] Hg. rewrite loop_eq. cbn [rw_belongs rw_options rw_groups push_group].
  rewrite !app_length, map_length. split; [lia|]. apply all_enough_app; auto. now apply enough_eq.
Qed.
Lemma push_enough r d : enough r -> enough (push_option r d).
Proof. rewrite !enough_eq. cbn. rewrite app_length. intros [H1 H2]. split; [cbn; lia|auto]. Qed.
Lemma cut_enough r d r' : enough r -> cut_add r d r' -> enough r'.
Proof. intros H C. inversion C; subst; auto using push_enough. Qed.

Lemma assembled_enough r : assembled r -> enough r.
Proof.
  induction 1 as [c L m r H|r d _ IH|r d r' _ IH H|r g _ IH1 _ IH2|r g r' _ IH1 _ IH2 H].
  - unfold raw_new in H. destruct (Z.ltb _ _); [|discriminate]. injection H as <-. cbn. auto.
  - rewrite enough_eq in *. cbn. rewrite !app_length. cbn. destruct IH. split; [lia|auto].
  - eauto using cut_enough.
  - now apply loop_enough.
  - inversion H as [|done d todo r0 E C]; subst; auto. eapply cut_enough; [|exact C]. now apply loop_enough.
Qed.

Lemma print_options_ok nd width L opts : forall bs t,
  raw_print_options nd opts bs width L = Ok t -> List.length opts <= List.length bs.
Proof.
  induction opts as [|d opts IH]; intros bs t H; cbn [raw_print_options] in H; [cbn; lia|].
  destruct bs as [|[] bs]; [discriminate| |].
  - apply IH in H. cbn. lia.
  - apply bind_Ok in H as (t1 & _ & H). apply bind_Ok in H as (t2 & H & _). apply IH in H. cbn. lia.
Qed.

Lemma combine_both {A B} (l : list A) : forall l' : list B, List.length l = List.length l' ->
  map fst (combine l l') = l /\ map snd (combine l l') = l'.
Proof.
  induction l as [|x l IH]; intros [|y l'] H; try discriminate; [auto|]. injection H as H. destruct (IH l' H) as [E1 E2].
  cbn. now rewrite E1, E2.
Qed.

Lemma print_ok_intact nd r : enough r -> forall width t, raw_print nd r width = Ok t -> intact r.
Proof.
  induction r as [c L m opts bs groups IH] using raw_ind2. intros He width t H. rewrite raw_print_eq in H.
  apply bind_Ok in H as (w & _ & H). apply bind_Ok in H as (body & Hb & H). apply bind_Ok in H as (tail & Ht & _).
  apply enough_eq in He. cbn in He. destruct He as [He1 He2]. apply print_options_ok in Hb.
  assert (G : exists gs, groups = map vectors_of gs).
  { clear - IH He2 Ht. revert tail Ht. induction IH as [|g groups Hg _ IHg]; intros tail Ht; [now exists []|].
    cbn [raw_print_groups] in Ht. destruct He2 as [E1 E2].
    apply bind_Ok in Ht as (t1 & H1 & Ht). apply bind_Ok in Ht as (t2 & H2 & _).
    destruct (Hg E1 _ _ H1) as [og ->]. destruct (IHg E2 _ H2) as [gs ->]. now exists (og :: gs). }
  destruct G as [gs ->]. destruct (combine_both opts bs ltac:(lia)) as [E1 E2].
  exists (mk_ods c L m (combine opts bs) gs). cbn. now rewrite E1, E2.
Qed.

(** Flags missing at the top: nothing is shown but an error. *)
Lemma print_options_short nd width L opts : forall bs,
  List.length bs < List.length opts -> Forall (fun d => exists t, format_one nd d width L = Ok t) opts ->
  raw_print_options nd opts bs width L = Undef UB_index.
Proof.
  induction opts as [|d opts IH]; intros bs H F; cbn in H; [lia|]. inversion F as [|? ? [t Ht] F']; subst.
  destruct bs as [|[] bs]; cbn [raw_print_options]; [reflexivity| |]; cbn in H.
  - apply IH; [lia|auto].
  - rewrite Ht, (IH bs); [reflexivity|lia|auto].
Qed.
