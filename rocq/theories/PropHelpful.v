(** C108: what the help says can be typed. *)

From Coq Require Import List Ascii String NArith ZArith Bool Lia.
From Verif Require Import Base Errors Spec BaseFacts Values OptDesc SpecLookup Positional Cmdline Format SpecCmdline
  SpecFormat FormatFacts2 Build SpecHelpful HelpfulFacts Samples.
Import ListNotations.

(** C108. The name column of the help is made of one or two words, *)
Theorem C108_words : forall ds d column, well_named ds d -> format_name d = Ok column ->
  (exists w n, shown_word d w n /\ column = w)
  \/ (exists w1 n1 w2 n2, shown_word d w1 n1 /\ shown_word d w2 n2 /\ column = w1 ++ $" [ " ++ w2 ++ $" ]").
Proof.
  intros ds d column W H. apply format_name_iff in H. destruct H as [Hs Hl|l ls Hs Hl|l ls Hs Hl].
  - left. destruct (wn_short _ _ W Hs) as ((x & E & _) & _). exists [c_dash; x], [c_dash; x]. split; [now constructor|exact E].
  - right. destruct (wn_short _ _ W Hs) as ((x & E & _) & _). exists [c_dash; x], [c_dash; x], ($"--" ++ l), l.
    split; [now constructor|]. split; [now apply sw_long with ls|]. rewrite E. reflexivity.
  - left. exists ($"--" ++ l), l. split; [now apply sw_long with ls|reflexivity].
Qed.
Print Assumptions C108_words.

(** and each of them, typed with as many values as the option may have, is read as that option
    with these values. *)
Theorem C108_typed : forall c d w n vs,
  usual c -> counted (cl_desc c) -> well_named (cl_desc c) d -> shown_word d w n -> Forall mere_word vs ->
  (vs_min (od_sem d) <= Z.of_nat (List.length vs) <= Z.max (vs_min (od_sem d)) (vs_max (od_sem d)))%Z ->
  (Z.of_nat (List.length (w :: vs)) < INT_MAX)%Z ->
  parse c (w :: vs) = Ok [mk_popt (filed_as d) (-1) vs (w :: vs) false false].
Proof. intros c d w n vs U N W. now apply typed_lemma. Qed.
Print Assumptions C108_typed.

(** With fewer values it is rejected. *)
Theorem C108_too_few : forall c d w n vs res,
  usual c -> counted (cl_desc c) -> well_named (cl_desc c) d -> shown_word d w n ->
  (Z.of_nat (List.length vs) < vs_min (od_sem d))%Z -> (Z.of_nat (List.length (w :: vs)) < INT_MAX)%Z ->
  parse c (w :: vs) <> Ok res.
Proof. intros c d w n vs res U N W. now apply too_few_lemma. Qed.
Print Assumptions C108_too_few.

(** C108. If the help shows an argument after the name, the option takes the word that follows
    it (if it wants a single one), or a value in the same token; *)
Theorem C108_argument : forall c d w n v,
  usual c -> counted (cl_desc c) -> well_named (cl_desc c) d -> shown_word d w n -> mere_word v ->
  (vs_min (od_sem d) <= 1)%Z -> format_parameter d <> [] ->
  parse c [w; v] = Ok [mk_popt (filed_as d) (-1) [v] [w; v] false false]
  /\ (v <> [] -> w = $"--" ++ n ->
      parse c [w ++ $"=" ++ v] = Ok [mk_popt (filed_as d) (-1) [v] [w ++ $"=" ++ v] false false]).
Proof.
  intros c d w n v U N W Hw Hv Hmin Hshown. unfold format_parameter in Hshown.
  assert (Hmax : vs_max (od_sem d) <> 0%Z).
  { intros E. rewrite E in Hshown. now apply Hshown. }
  pose proof (own_sized c d U W N) as ((Hmin0 & Hmax0) & _).
  split.
  - apply (typed_lemma c d U W N w n [v]); auto.
    + cbn [List.length]. lia.
    + cbn [List.length]. unfold INT_MAX. lia.
  - intros Hne E. destruct Hw as [x Hx|l ls Hl].
    + exfalso. discriminate E.
    + apply (attached_lemma c d U W N l ls v Hl Hne Hmax Hmin).
Qed.
Print Assumptions C108_argument.

(** if it shows none, the words that follow are not the option's, and a value in the same
    token is an error. *)
Theorem C108_no_argument : forall c d w n vs,
  usual c -> counted (cl_desc c) -> well_named (cl_desc c) d -> shown_word d w n -> Forall mere_word vs ->
  cl_positional c = None -> vs_min (od_sem d) = 0%Z -> vs_name (od_sem d) <> [] -> format_parameter d = [] ->
  (Z.of_nat (List.length (w :: vs)) < INT_MAX)%Z ->
  (exists rest, parse c (w :: vs) = Ok (mk_popt (filed_as d) (-1) [] [w] false false :: rest)
     /\ positional_items 0 vs rest)
  /\ (forall v res, v <> [] -> w = $"--" ++ n -> parse c [w ++ $"=" ++ v] <> Ok res).
Proof.
  intros c d w n vs U N W Hw Hvs Hp Hmin Hname Hshown Hlen. unfold format_parameter in Hshown.
  assert (Hmax : vs_max (od_sem d) = 0%Z).
  { destruct (Z.eqb_spec (vs_max (od_sem d)) 0) as [E|E]; [exact E|]. exfalso. now apply Hname. }
  split.
  - now apply (not_taken_lemma c d U W N w n vs).
  - intros v res Hne E. destruct Hw as [x Hx|l ls Hl]; [discriminate E|].
    apply (not_attached_lemma c d U W N l ls v res Hl Hne Hmax).
Qed.
Print Assumptions C108_no_argument.

(** C108. The conditions are needed. A name with '=' is shown but cannot be typed, *)
Definition with_options (ds : list option_description) : cmdline := mk_cl default_style false ds None None None.

Ltac solve_counted := split;
  [repeat (apply Forall_cons; [discriminate|]); apply Forall_nil
  |repeat (apply Forall_cons; [split; [split; cbn; unfold UINT_MAX; lia|(left; cbn; unfold INT_MAX, UINT_MAX; lia) || (right; reflexivity)]|]); apply Forall_nil].

Theorem C108_equals_refuted : ~ forall c d w n,
  usual c -> counted (cl_desc c) -> In d (cl_desc c) -> sole_owner (cl_desc c) d n -> shown_word d w n ->
  vs_min (od_sem d) = 0%Z -> exists res, parse c [w] = Ok res.
Proof.
  intros H. destruct (H (with_options [mk_od [] [$"a=b"] [] tflag]) (mk_od [] [$"a=b"] [] tflag) $"--a=b" $"a=b") as (res & E).
  - constructor; try reflexivity; split; reflexivity.
  - solve_counted.
  - now left.
  - exists [], []. split; [reflexivity|]. intros d' [].
  - exact (sw_long (mk_od [] [$"a=b"] [] tflag) $"a=b" [] eq_refl).
  - reflexivity.
  - discriminate E.
Qed.
Print Assumptions C108_equals_refuted.

(** and the short name '-' is shown as "--", which is no option at all. *)
Theorem C108_dash_refuted : ~ forall c d w n,
  usual c -> counted (cl_desc c) -> In d (cl_desc c) -> sole_owner (cl_desc c) d n -> shown_word d w n ->
  vs_min (od_sem d) = 0%Z -> parse c [w] <> Ok [].
Proof.
  intros H. apply (H (with_options [mk_od $"--" [] [] tflag]) (mk_od $"--" [] [] tflag) $"--" $"--").
  - constructor; try reflexivity; split; reflexivity.
  - solve_counted.
  - now left.
  - exists [], []. split; [reflexivity|]. intros d' [].
  - exact (sw_short (mk_od $"--" [] [] tflag) "-"%char eq_refl).
  - reflexivity.
  - reflexivity.
Qed.
Print Assumptions C108_dash_refuted.

Example C108_ex :
  let ds := [o_help; o_verbose; o_output; o_number; o_input] in
  usual (with_options ds) /\ counted ds /\ Forall (well_named ds) ds
  /\ format_name o_output = Ok $"-o [ --output ]" /\ format_parameter o_output = $"arg"
  /\ format_parameter o_help = [] /\ vs_name (od_sem o_help) <> []
  /\ shown_word o_output $"-o" $"-o" /\ shown_word o_output $"--output" $"output"
  /\ mere_word $"file"
  /\ parse (with_options ds) [$"-o"; $"file"] = Ok [mk_popt $"output" (-1) [$"file"] [$"-o"; $"file"] false false].
Proof.
  cbv zeta. split; [constructor; try reflexivity; split; reflexivity|].
  split; [solve_counted|].
  split.
  { repeat (apply Forall_cons); [..|apply Forall_nil];
      (constructor;
       [cbn; (left; discriminate) || (right; discriminate)
       |cbn; intros Hs; first [congruence|split; [eexists; split; [reflexivity|discriminate]|]]
       |cbn; intros l ls E; injection E as <- <-; split; [discriminate|]; split; [intros Hi; cbn in Hi; repeat (destruct Hi as [Hi|Hi]; [discriminate Hi|]); exact Hi|];
        split; [intros Hi; cbn in Hi; repeat (destruct Hi as [Hi|Hi]; [discriminate Hi|]); exact Hi|]]).
    all: unfold sole_owner.
    1,2: exists [], [o_verbose; o_output; o_number; o_input].
    3,4: exists [o_help], [o_output; o_number; o_input].
    5,6: exists [o_help; o_verbose], [o_number; o_input].
    7,8: exists [o_help; o_verbose; o_output], [o_input].
    9: exists [o_help; o_verbose; o_output; o_number], [].
    all: split; [reflexivity|]; intros d' Hi; cbn in Hi; repeat (destruct Hi as [<-|Hi]; [split; [cbn; intros Hj; repeat (destruct Hj as [Hj|Hj]; [discriminate Hj|]); exact Hj|discriminate]|]); destruct Hi. }
  split; [reflexivity|]. split; [reflexivity|]. split; [reflexivity|]. split; [discriminate|].
  split; [exact (sw_short o_output "o"%char eq_refl)|]. split; [exact (sw_long o_output $"output" [] eq_refl)|].
  split; [|reflexivity]. intros (x & s & E & [->| ->]); discriminate E.
Qed.
