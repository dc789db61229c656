(** C94: the help is printed on streams that are limited, broken or set to a field width. *)

From Coq Require Import List Ascii String NArith ZArith Bool Arith Lia.
From Verif Require Import Base Errors Spec BaseFacts Values OptDesc Format SpecFormat FormatFacts FormatFacts2 Masked OutStream SpecOut OutFacts.
From Verif Require Import Samples Witness PropFormat.
Import ListNotations.

(** What [print] returns besides its text. *)
Definition verdict (x : outcome str) : outcome unit := let* _ := x in Ok tt.

Lemma wprint_verdict ndebug ods column : exists ops, wprint ndebug ods column = (ops, verdict (print ndebug ods column)).
Proof.
  rewrite <- den_print. destruct (wprint ndebug ods column) as [ops [[]| | |]]; cbn; eauto.
Qed.

Lemma print_on_eq impl ndebug s ods column ops s' t :
  wprint ndebug ods column = (ops, verdict (print ndebug ods column)) -> os_exec impl s ops = (s', t) ->
  print_on impl ndebug s ods column = (s', if t then Failure else Done (verdict (print ndebug ods column))).
Proof. intros H1 H2. unfold print_on. now rewrite H1, H2. Qed.

(** C94. On a stream without errors and without a field width exactly the text is appended, if there is room for it. *)
Theorem C94_written : forall impl ndebug s ods column text,
  ready s -> (os_width s <= 0)%Z -> print ndebug ods column = Ok text -> room_for s (List.length text) ->
  exists s', print_on impl ndebug s ods column = (s', Done (Ok tt))
    /\ os_text s' = os_text s ++ text /\ ready s' /\ same_settings s s' /\ (os_width s' <= 0)%Z
    /\ (forall n, os_room s = Some n -> os_room s' = Some (n - List.length text)).
Proof.
  intros impl ndebug s ods column text Hr Hw E Hroom. destruct (wprint_verdict ndebug ods column) as (ops & H).
  pose proof (den_print ndebug ods column) as D. rewrite H, E in D. cbn in D. injection D as D.
  assert (P : first_padded s ops = text) by (rewrite first_padded_0; auto).
  assert (X := exec_room impl ops Hr). rewrite P in X. specialize (X Hroom).
  rewrite (print_on_eq impl _ s _ _ _ _ _ H X), E. eexists. split; [reflexivity|]. cbn [os_text os_fill os_left os_mask os_width os_room].
  split; [reflexivity|]. split; [now repeat split|]. split; [now repeat split|]. split; [now destruct (has_insert ops)|].
  intros n En. unfold taken. now rewrite En.
Qed.
Print Assumptions C94_written.

(** C94. A stream that takes only [n] characters more gets the first [n] of them; then it is bad.  [print] notices nothing,
    unless the stream throws for that, *)
Theorem C94_cut_off : forall impl ndebug s ods column text n,
  ready s -> (os_width s <= 0)%Z -> print ndebug ods column = Ok text -> os_room s = Some n -> n < List.length text ->
  exists s' r, print_on impl ndebug s ods column = (s', r)
    /\ os_text s' = os_text s ++ firstn n text /\ os_bad s' = true /\ same_settings s s'
    /\ (silent s -> r = Done (Ok tt)) /\ (on_bad (os_mask s) = true -> r = Failure).
Proof.
  intros impl ndebug s ods column text n Hr Hw E Hn Hl. destruct (wprint_verdict ndebug ods column) as (ops & H).
  pose proof (den_print ndebug ods column) as D. rewrite H, E in D. cbn in D. injection D as D.
  assert (P : first_padded s ops = text) by (rewrite first_padded_0; auto).
  destruct (os_exec impl s ops) as [s' t] eqn:X. rewrite <- P in Hl.
  destruct (exec_short impl ops Hr Hn Hl X) as (A1 & A2 & A3 & A4 & A5). rewrite P in A1.
  rewrite (print_on_eq impl _ s _ _ _ _ _ H X), E. do 2 eexists. split; [reflexivity|]. split; [exact A1|]. split; [exact A2|].
  split; [exact A3|]. split; intros K; [now rewrite (A4 K)|now rewrite (A5 K)].
Qed.
Print Assumptions C94_cut_off.

(** C94. and on one that is not good nothing arrives, but errors of the description are still reported. *)
Theorem C94_broken : forall impl ndebug s ods column,
  ~ ready s ->
  exists s' r, print_on impl ndebug s ods column = (s', r)
    /\ os_text s' = os_text s /\ ~ ready s' /\ same_settings s s' /\ os_bad s' = os_bad s /\ os_eof s' = os_eof s
    /\ (on_fail (os_mask s) = false -> os_hits s = false -> r = Done (verdict (print ndebug ods column))).
Proof.
  intros impl ndebug s ods column Hr. destruct (wprint_verdict ndebug ods column) as (ops & H).
  destruct (os_exec impl s ops) as [s' t] eqn:X.
  destruct (exec_stuck impl ops Hr X) as (A1 & A2 & _ & A4 & _ & A6 & A7 & A8 & _).
  rewrite (print_on_eq impl _ s _ _ _ _ _ H X). do 2 eexists. split; [reflexivity|]. split; [exact A1|]. split; [exact A4|].
  split; [exact A2|]. split; [exact A6|]. split; [exact A7|]. intros K1 K2. now rewrite (A8 K2 K1).
Qed.
Print Assumptions C94_broken.


(** C94. A field width applies to the first thing that is written, and only to that; then it is 0; *)
Theorem C94_field_width : forall impl ndebug t ods column s text first,
  build t = Ok ods -> sized t -> sane t -> (0 <= column)%Z -> print ndebug ods column = Ok text -> first_piece t first ->
  ready s -> os_room s = None ->
  exists rest out s', text = first ++ rest /\ justified s first out
    /\ print_on impl ndebug s ods column = (s', Done (Ok tt))
    /\ os_text s' = os_text s ++ out ++ rest /\ ready s' /\ same_settings s s' /\ os_width s' = 0%Z.
Proof.
  intros impl ndebug t ods column s text first B S N Hc E F Hr Hroom. pose proof (build_built _ B) as B'.
  assert (X : exists W, W <> 0%Z /\ wprint ndebug ods column = wprint ndebug ods W).
  { destruct (Z.eq_dec column 0) as [->|Nz]; [|now exists column].
    assert (exists W, get_option_column_width ods = Ok W) as (W & HW).
    { destruct ods as [c L m opts groups]. cbn [print Z.eqb] in E. apply bind_Ok in E as (W & HW & _). eauto. }
    pose proof (column_positive (proj1 width_spec _ _ B' N (sized_tree S) _ HW)). exists W. split; [lia|]. apply wprint_default; [exact HW|lia]. }
  destruct X as (W & NW & EW). destruct (starts_first ndebug B' NW F) as (ops & So). rewrite <- EW in So.
  destruct (wprint_verdict ndebug ods column) as (ops' & H). rewrite H in So. cbn in So. subst ops'.
  pose proof (den_print ndebug ods column) as D. rewrite H, E in D. cbn in D. injection D as D.
  assert (X := exec_room impl (Insert first :: ops) Hr). unfold room_for in X. rewrite Hroom in X. specialize (X I).
  rewrite (print_on_eq impl _ s _ _ _ _ _ H X), E. cbn [first_padded has_insert existsb orb].
  exists (flat ops), (padded (os_width s) (os_fill s) (os_left s) first). eexists. split; [now rewrite <- D|].
  split; [apply padded_justified|]. split; [reflexivity|]. now repeat split.
Qed.
Print Assumptions C94_field_width.

(** C94. if nothing is written, it stays. *)
Theorem C94_empty : forall impl ndebug t ods column s L,
  build t = Ok ods -> (0 < column)%Z -> sections t = [([], L, [])] ->
  print_on impl ndebug s ods column = (s, Done (Ok tt)).
Proof.
  intros impl ndebug t ods column s L B Hc E. unfold print_on.
  rewrite (@nothing_printed t ods ndebug column L (build_built _ B)) by (auto; lia). reflexivity.
Qed.
Print Assumptions C94_empty.

(** C94. If a paragraph with two tabs is met, everything before it has been written. *)
Theorem C94_exception : forall impl ndebug t ods column s e,
  build t = Ok ods -> sized t -> sane t -> (0 <= column)%Z -> print false ods column = Throw e ->
  ready s -> (os_width s <= 0)%Z -> os_room s = None ->
  exists W text s', column_used t column W /\ cut_help W t text
    /\ print_on impl ndebug s ods column = (s', Done (Throw e)) /\ os_text s' = os_text s ++ text /\ ready s'.
Proof.
  intros impl ndebug t ods column s e B S N Hc E Hr Hw Hroom. pose proof (build_built _ B) as B'.
  assert (X : exists W, column_used t column W /\ (0 < W)%Z /\ wprint false ods column = wprint false ods W).
  { destruct (Z.eq_dec column 0) as [->|Nz].
    - destruct (get_option_column_width ods) as [W|e'|u|] eqn:HW.
      + pose proof (proj1 width_spec _ _ B' N (sized_tree S) _ HW) as D. pose proof (column_positive D). exists W.
        split; [right; auto|]. split; [lia|]. apply wprint_default; [exact HW|lia].
      + destruct (width_no_throw _ HW).
      + destruct ods as [c L m opts groups]. cbn [print Z.eqb] in E. rewrite HW in E. discriminate.
      + destruct ods as [c L m opts groups]. cbn [print Z.eqb] in E. rewrite HW in E. discriminate.
    - exists column. split; [left; split; [lia|reflexivity]|]. split; [lia|reflexivity]. }
  destruct X as (W & U & PW & EW). assert (NW : W <> 0%Z) by lia.
  pose proof E as E'. rewrite <- den_print in E'. apply den_Throw in E' as (ops & E').
  rewrite <- (wprint_throw_any ndebug _ _ E) in E'.
  assert (C : cut_help W t (flat ops)).
  { rewrite (wprint_throw_any ndebug _ _ E), EW, (proj1 (wprint_sections false NW) _ _ B') in E'.
    apply sections_Throw in E' as (before & texts & c & L & ds & d & ds' & after & sh & part & E1 & F1 & F2 & C & ->);
      [|lia|now apply sections_sized]. eapply cut_help_at; eauto. }
  assert (X := exec_room impl ops Hr). unfold room_for in X. rewrite Hroom in X. specialize (X I).
  rewrite first_padded_0 in X by exact Hw. unfold print_on. rewrite E', X.
  exists W, (flat ops). eexists. split; [exact U|]. split; [exact C|]. split; [reflexivity|]. now repeat split.
Qed.
Print Assumptions C94_exception.

(** C94. Whether a stream that throws only for [failbit] throws when output is lost depends on the implementation. *)
Definition small_tree : tree := Tree $"Use" 80 40 [inl o_help].
Definition short_stream : ostream := mk_os $"> " (Some 7) false false false 0 c_space true (mk_mask false true false).
Theorem C94_failbit_only : exists s ods text,
  ready s /\ on_fail (os_mask s) = true /\ os_room s = Some 7 /\ print false ods 24 = Ok text /\ 7 < List.length text
  /\ snd (print_on (mk_impl false false) false s ods 24) = Done (Ok tt)
  /\ snd (print_on (mk_impl true false) false s ods 24) = Failure
  /\ snd (print_on (mk_impl false true) false s ods 24) = Failure.
Proof.
  exists short_stream, (made small_tree).
  destruct (print false (made small_tree) 24) as [text| | |] eqn:E; [|vm_compute in E; discriminate..].
  exists text. split; [now repeat split|]. split; [reflexivity|]. split; [reflexivity|]. split; [reflexivity|].
  split; [|split; [vm_compute; reflexivity|split; [vm_compute; reflexivity|vm_compute; reflexivity]]].
  vm_compute in E. injection E as <-. vm_compute. repeat constructor.
Qed.
Print Assumptions C94_failbit_only.

Definition bad_option : option_description := mk_od $"-x" [] ($"one" ++ [c_nl] ++ $"a" ++ [c_tab] ++ $"b" ++ [c_tab]) tflag.
Definition tabs_tree : tree := Tree [] 80 40 [inl o_help; inr (Tree $"Group" 80 40 [inl bad_option])].
Definition wide_stream : ostream := mk_os $"> " None false false false 9 "."%char false (mk_mask false true true).

Lemma tabs_sized : sized tabs_tree.
Proof.
  split; [repeat constructor; vm_compute; discriminate|].
  cbn [tabs_tree all_options flat_map app].
  repeat (constructor; [split; [split; vm_compute; auto; discriminate|
    intros col Hc; apply first_column_iff in Hc; vm_compute in Hc; injection Hc as <-; vm_compute; intuition discriminate]|]).
  constructor.
Qed.

(** C94. A caption that is filled up; a limited stream; an option without and one with two tabs. *)
Example C94_ex :
  build small_tree = Ok (made small_tree)
  /\ print false (made small_tree) 24 = Ok (lined [$"Use:"; $"  -h [ --help ]         print help"; $""])
  /\ ready wide_stream /\ first_piece small_tree $"Use"
  /\ (forall impl, os_text (fst (print_on impl false wide_stream (made small_tree) 24))
        = $"> ......" ++ lined [$"Use:"; $"  -h [ --help ]         print help"; $""])
  /\ ready short_stream
  /\ (forall impl, os_text (fst (print_on impl false short_stream (made small_tree) 24)) = $"> " ++ lined [$"Use:"; $"  "])
  /\ build tabs_tree = Ok (made tabs_tree) /\ sized tabs_tree /\ sane tabs_tree
  /\ (exists e, print false (made tabs_tree) 0 = Throw e)
  /\ first_piece tabs_tree $"  -h [ --help ] "
  /\ (forall impl, os_text (fst (print_on impl true (mk_os [] None false false false 0 c_space true (mk_mask true true true)) (made tabs_tree) 24))
        = lined [$"  -h [ --help ]         print help"; $""; $"Group:"; $"  -x                    one"; $"                        "]).
Proof.
  split; [reflexivity|]. split; [vm_compute; reflexivity|]. split; [now repeat split|].
  split; [apply (fp_caption small_tree); discriminate|]. split; [intros [[] []]; vm_compute; reflexivity|].
  split; [now repeat split|]. split; [intros [[] []]; vm_compute; reflexivity|]. split; [reflexivity|].
  split; [exact tabs_sized|]. split; [repeat constructor; vm_compute; discriminate|]. split; [apply throw_ex; vm_compute; reflexivity|].
  split; [|intros [[] []]; vm_compute; reflexivity].
  eapply fp_option; [reflexivity|]. apply first_column_iff. reflexivity.
Qed.
