(** C112: running out of memory while a description is built. *)

From Coq Require Import List Ascii String NArith ZArith Bool Arith Lia.
From Verif Require Import Base Errors BaseFacts Values OptDesc Format OutFacts SpecCmdline BuildMemory SpecBuildMemory BuildMemoryFacts Samples.
Import ListNotations.

(** C112. As long as memory lasts, the two vectors of a description are those of the model with pairs: its constructor, both
    functions [add], [options] and [print] do the same. *)
Theorem C112_same : forall c L m od d g nd width,
  raw_new c L m = (let* od := new_options c L m in Ok (vectors_of od))
  /\ raw_add (vectors_of od) d = vectors_of (ods_add od d)
  /\ raw_add_group (vectors_of od) (vectors_of g) = vectors_of (ods_add_group od g)
  /\ rw_options (vectors_of od) = ods_list od
  /\ raw_print nd (vectors_of od) width = print nd od width.
Proof.
  intros c L m od d g nd width. split; [unfold raw_new, new_options; destruct (Z.ltb _ _); reflexivity|].
  split; [symmetry; apply vectors_add|]. split; [symmetry; apply vectors_add_group|].
  split; [destruct od; reflexivity|apply vectors_print].
Qed.
Print Assumptions C112_same.

(** C112. If memory runs out in [add], the options known before are still known, in the same order, followed by the first
    of those to be added. *)
Theorem C112_options : forall r d g r',
  (cut_add r d r' -> exists known, begins known [d] /\ rw_options r' = rw_options r ++ known)
  /\ (cut_add_group r g r' -> exists known, begins known (rw_options g) /\ rw_options r' = rw_options r ++ known).
Proof.
  intros r d g r'.
  assert (A : forall r d r', cut_add r d r' -> exists known, begins known [d] /\ rw_options r' = rw_options r ++ known).
  { intros r0 d0 r0' H. inversion H; subst.
    - exists []. split; [now exists [d0]|now rewrite app_nil_r].
    - exists [d0]. split; [now exists []|reflexivity]. }
  split; [apply A|]. intros H. inversion H as [|done d0 todo r0 E C]; subst.
  - exists []. split; [now exists (rw_options g)|now rewrite app_nil_r].
  - destruct (A _ _ _ C) as (k & [rest Ek] & E'). exists (done ++ k). split.
    + exists (rest ++ todo). rewrite E, <- app_assoc. f_equal. rewrite app_assoc, <- Ek. reflexivity.
    + rewrite E', loop_eq. cbn [rw_options push_group]. now rewrite <- app_assoc.
Qed.
Print Assumptions C112_options.

(** C112. Help that gets printed is that of a description in which nothing is amiss: each option of it and of its groups
    has its place. *)
Theorem C112_help : forall nd r width text,
  assembled r -> raw_print nd r width = Ok text -> exists od, r = vectors_of od /\ print nd od width = Ok text.
Proof.
  intros nd r width text Ha H. destruct (print_ok_intact nd r (assembled_enough r Ha) _ _ H) as [od ->].
  exists od. split; [reflexivity|]. now rewrite <- vectors_print.
Qed.
Print Assumptions C112_help.

(** C112. If memory runs out between two options of a group, the description can be used, and its help, with a given width
    of the first column, already shows the whole group. *)
Theorem C112_group : forall r g done todo,
  intact r -> intact g -> rw_options g = done ++ todo ->
  intact (raw_add_loop (push_group r g) done)
  /\ forall nd width, width <> 0%Z ->
       raw_print nd (raw_add_loop (push_group r g) done) width = raw_print nd (raw_add_group r g) width.
Proof.
  intros r g done todo [[c L m opts groups] ->] [og ->] E. split.
  - exists (mk_ods c L m (opts ++ map (fun d => (d, true)) done) (groups ++ [og])). rewrite loop_eq. cbn.
    rewrite !map_app, !map_map. cbn. now rewrite map_id.
  - intros nd width Hw. unfold raw_add_group. rewrite !loop_eq. cbn [vectors_of push_group rw_caption rw_line_length
      rw_min_description_length rw_options rw_belongs rw_groups].
    rewrite !raw_print_eq. destruct (Z.eqb_spec width 0); [contradiction|]. cbn [bind].
    assert (K : forall ds, raw_print_options nd (map fst opts ++ ds) (map snd opts ++ map (fun _ => true) ds) width L
                 = raw_print_options nd (map fst opts) (map snd opts) width L).
    { intros ds. clear. induction opts as [|[d []] opts IH]; cbn [map fst snd app raw_print_options].
      - induction ds; auto.
      - exact IH.
      - now rewrite IH. }
    now rewrite !K.
Qed.
Print Assumptions C112_group.

(** C112. But between the two steps of adding one option, memory may run out and leave a description whose help can not be
    printed: the behaviour is undefined, and no option added later mends this, *)
Theorem C112_half_added : forall nd r d r' width,
  intact r -> r' = push_option r d -> width <> 0%Z ->
  Forall (fun d => exists t, format_one nd d width (rw_line_length r) = Ok t) (rw_options r') ->
  cut_add r d r' /\ raw_print nd r' width = Undef UB_index.
Proof.
  intros nd r d r' width [[c L m opts groups] ->] -> Hw F. split; [constructor|].
  unfold push_option in *. cbn [vectors_of rw_caption rw_line_length rw_min_description_length rw_options rw_belongs rw_groups] in *.
  rewrite raw_print_eq. destruct (Z.eqb_spec width 0); [contradiction|]. cbn [bind].
  rewrite print_options_short; [reflexivity| |exact F]. rewrite app_length, !map_length. cbn. lia.
Qed.
Print Assumptions C112_half_added.

Theorem C112_never_mended : forall r nd width text,
  assembled r -> (List.length (rw_belongs r) < List.length (rw_options r))%nat ->
  (forall d, raw_print nd (raw_add r d) width <> Ok text) /\ (forall g, assembled g -> raw_print nd (raw_add_group r g) width <> Ok text).
Proof.
  intros r nd width text Ha Hl.
  assert (K : forall r', assembled r' -> (List.length (rw_belongs r') < List.length (rw_options r'))%nat -> raw_print nd r' width <> Ok text).
  { intros r' Ha' Hl' H. destruct (print_ok_intact nd r' (assembled_enough r' Ha') _ _ H) as [[c L m opts groups] ->].
    cbn in Hl'. rewrite !map_length in Hl'. lia. }
  split.
  - intros d. apply K; [now constructor|]. cbn. rewrite !app_length. cbn. lia.
  - intros g Hg. apply K; [now constructor|]. unfold raw_add_group. rewrite loop_eq. cbn. rewrite !app_length, map_length. lia.
Qed.
Print Assumptions C112_never_mended.

(** The descriptions of the examples: one without options, and a group of two. *)
Definition empty_description : options_description := mk_ods [] 80 40 [] [].
Definition group_of_two : options_description := ods_add (ods_add (mk_ods $"Group" 80 40 [] []) o_help) o_number.

(** C112. and help may show an option that is not recognized. *)
Theorem C112_unusable_refuted :
  exists r g r' width text, assembled r /\ assembled g /\ cut_add_group r g r' /\ In o_number (rw_options g)
    /\ raw_print true r' width = Ok text /\ raw_print true (raw_add_group r g) width = Ok text
    /\ fails_with (find (rw_options r') $"number" false false false) unknown_option.
Proof.
  exists (vectors_of empty_description), (vectors_of group_of_two),
    (raw_add_loop (push_group (vectors_of empty_description) (vectors_of group_of_two)) [o_help]), 30%Z.
  eexists. split; [now apply (bu_new [] 80 40)|].
  split; [unfold group_of_two; rewrite !vectors_add; do 2 apply bu_add; now apply (bu_new $"Group" 80 40)|].
  split; [apply (cg_loop _ _ [o_help] o_number []); [reflexivity|apply ca_before]|].
  split; [right; now left|]. split; [vm_compute; reflexivity|]. split; [vm_compute; reflexivity|].
  eexists. split; [vm_compute; reflexivity|reflexivity].
Qed.
Print Assumptions C112_unusable_refuted.

Example C112_ex :
  let r := vectors_of (ods_add_group (ods_add empty_description o_level) group_of_two) in
  assembled r /\ intact r /\ Forall (fun d => exists t, format_one true d 30 (rw_line_length r) = Ok t) (rw_options (push_option r o_verbose))
  /\ raw_print true (push_option r o_verbose) 30 = Undef UB_index
  /\ assembled (push_option r o_verbose)
  /\ (List.length (rw_belongs (push_option r o_verbose)) < List.length (rw_options (push_option r o_verbose)))%nat.
Proof.
  intros r.
  assert (A : assembled r).
  { unfold r, group_of_two. rewrite vectors_add_group, !vectors_add. apply bu_group.
    - apply bu_add. now apply (bu_new [] 80 40).
    - do 2 apply bu_add. now apply (bu_new $"Group" 80 40). }
  split; [exact A|]. split; [now eexists|]. split.
  - repeat (apply Forall_cons; [eexists; vm_compute; reflexivity|]). apply Forall_nil.
  - split; [vm_compute; reflexivity|]. split; [apply (bu_add_cut r o_verbose); [exact A|apply ca_half]|]. vm_compute. lia.
Qed.
