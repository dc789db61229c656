(** Facts about wide values: an option with wide values behaves like one with narrow values whose conversion first
    decodes UTF-8. *)

From Coq Require Import List Ascii String NArith ZArith Bool Arith Lia.
From Verif Require Import Base Errors Spec BaseFacts Values OptDesc SpecLookup LookupFacts Cmdline Parsers VarMap SpecStore StoreFacts SemFacts
  ConfigFile Convert SpecConvert ConvertFacts Wide SpecWide WideFacts.
Import ListNotations.

Lemma widen_text tok : ascii7 tok -> utf8_text (widen tok) tok.
Proof.
  induction 1 as [|c tok Hc _ IH]; [constructor|].
  exact (utf8_text_app [N_of_ascii c] [c] (widen tok) tok (utf8_text_char c Hc) IH).
Qed.

Lemma widen_unique w tok : ascii7 tok -> utf8_text w tok -> w = widen tok.
Proof. intros H Hw. exact (utf8_text_inj _ _ _ Hw (widen_text tok H)). Qed.

Lemma wstr_eqb_eq a : forall b, wstr_eqb a b = true <-> a = b.
Proof.
  induction a as [|x a IH]; destruct b as [|y b]; cbn; split; try discriminate; auto.
  - intros H. apply andb_prop in H. destruct H as [H1 H2]. apply N.eqb_eq in H1. apply IH in H2. congruence.
  - intros [= -> ->]. rewrite N.eqb_refl. now apply IH.
Qed.

Lemma lower_N c : (N_of_ascii c < 128)%N ->
  N_of_ascii (lower_ascii c) = if (65 <=? N_of_ascii c)%N && (N_of_ascii c <=? 90)%N then (N_of_ascii c + 32)%N else N_of_ascii c.
Proof. destruct c as [[] [] [] [] [] [] [] []]; intros; vm_compute; reflexivity. Qed.

Lemma wtolower_widen tok : ascii7 tok -> mapM wtolower (widen tok) = Ok (widen (map lower_ascii tok)).
Proof.
  induction 1 as [|c tok Hc _ IH]; [reflexivity|]. unfold widen in *. cbn [map mapM]. rewrite IH. unfold wtolower.
  unfold ascii7_char in Hc. destruct (N.ltb_spec (N_of_ascii c) 256); [|lia]. rewrite lower_N by exact Hc. reflexivity.
Qed.

Lemma wtolower_to_ascii word : ascii7 word -> forall w, mapM wtolower w = Ok (widen word) ->
  exists tok, w = widen tok /\ ascii7 tok.
Proof.
  induction 1 as [|c word Hc _ IH]; intros w H.
  - destruct w as [|x w]; [exists []; split; [auto|constructor]|]. cbn [mapM] in H. apply bind_Ok in H. destruct H as (y & _ & H).
    apply bind_Ok in H. destruct H as (ys & _ & H). discriminate.
  - destruct w as [|x w]; [discriminate|]. cbn [mapM] in H. apply bind_Ok in H. destruct H as (y & Hy & H).
    apply bind_Ok in H. destruct H as (ys & Hys & H). unfold widen in H. cbn [map] in H. injection H as Ey Eys. subst y ys.
    destruct (IH w Hys) as (tok & -> & Ht). unfold wtolower in Hy. destruct (N.ltb_spec x 256) as [Hx|Hx]; [|discriminate].
    injection Hy as Hy. unfold ascii7_char in Hc.
    assert (Hs : (x < 128)%N) by (destruct (N.leb_spec 65 x), (N.leb_spec x 90); cbn in Hy; lia).
    exists (ascii_of_N x :: tok). unfold widen. cbn [map]. rewrite N_ascii_embedding by lia. split; auto.
    constructor; auto. unfold ascii7_char. rewrite N_ascii_embedding; lia.
Qed.

(** ** Decoded characters are in the range of UTF-8 *)

Lemma read_cont_lt k : forall acc cs r b, read_cont k acc cs = Some (Some r) -> (acc < b)%N -> (r < b * 64 ^ N.of_nat k)%N.
Proof.
  induction k as [|k IH]; intros acc cs r b H Hb; cbn [read_cont] in H.
  - injection H as <-. change (64 ^ N.of_nat 0)%N with 1%N. lia.
  - destruct cs as [|c cs]; [discriminate|]. destruct (invalid_continuing c) eqn:E; [discriminate|].
    apply IH with (b := (b * 64)%N) in H.
    + rewrite Nat2N.inj_succ, N.pow_succ_r'. lia.
    + unfold invalid_continuing in E. cbv zeta in E. apply orb_false_iff in E. destruct E as [E1 E2].
      apply N.ltb_ge in E1, E2. lia.
Qed.

Lemma sequence_lt c w : sequence c w -> (w < 2 ^ 31)%N.
Proof.
  intros [b cs r Hi _ Hr]. unfold invalid_leading in Hi. cbv zeta in Hi. apply orb_false_iff in Hi. destruct Hi as [H1 H2].
  apply N.ltb_ge in H2. unfold cont_octet_count in Hr. cbv zeta in Hr. revert Hr H1 H2. generalize (N_of_ascii b). intros n Hr H1 H2.
  destruct (N.leb_spec n 127) as [Hn|Hn].
  { apply read_cont_lt with (b := 128%N) in Hr; cbn [octet1_modifier] in *; [|lia]. change (128 * 64 ^ N.of_nat 0)%N with 128%N in Hr. lia. }
  assert (Hn2 : (192 <= n)%N).
  { destruct (N.ltb_spec 127 n), (N.ltb_spec n 192); cbn in H1; lia || discriminate. }
  destruct (N.leb_spec 192 n), (N.leb_spec n 223); cbn [andb] in Hr; try lia.
  { apply read_cont_lt with (b := 32%N) in Hr; cbn [octet1_modifier] in *; [|lia]. cbn in Hr. lia. }
  destruct (N.leb_spec 224 n), (N.leb_spec n 239); cbn [andb] in Hr; try lia.
  { apply read_cont_lt with (b := 16%N) in Hr; cbn [octet1_modifier] in *; [|lia]. cbn in Hr. lia. }
  destruct (N.leb_spec 240 n), (N.leb_spec n 247); cbn [andb] in Hr; try lia.
  { apply read_cont_lt with (b := 8%N) in Hr; cbn [octet1_modifier] in *; [|lia]. cbn in Hr. lia. }
  destruct (N.leb_spec 248 n), (N.leb_spec n 251); cbn [andb] in Hr; try lia.
  { apply read_cont_lt with (b := 4%N) in Hr; cbn [octet1_modifier] in *; [|lia]. cbn in Hr. lia. }
  { apply read_cont_lt with (b := 2%N) in Hr; cbn [octet1_modifier] in *; [|lia]. cbn in Hr. lia. }
Qed.

Lemma from_utf8_wide s ws : from_utf8 s = Ok ws -> wide_text ws.
Proof.
  intros H. destruct (convert_correct _ _ _ in_code 1 utf8_in tt s proper_in facet_in ltac:(lia)) as [(o & st & Ho & E)|[_ E]].
  - change (convert utf8_in tt s = Ok ws) in H. rewrite E in H. injection H as ->. clear E.
    induction Ho as [|st c o st1 cs os st2 (w & Hw & ->) _ IH]; [constructor|]. constructor; auto. eapply sequence_lt; eauto.
  - change (convert utf8_in tt s = Ok ws) in H. rewrite E in H. discriminate.
Qed.

Lemma wide_forms ws : Forall wide_text ws -> exists xs, Forall2 utf8_text ws xs.
Proof.
  induction 1 as [|w ws Hw _ (xs & IH)]; [exists []; auto|]. destruct (utf8_text_exists w Hw) as [x Hx]. exists (x :: xs). auto.
Qed.

Lemma decoded_forms xs ws : mapM from_utf8 xs = Ok ws -> exists ys, Forall2 utf8_text ws ys.
Proof.
  intros H. apply SemFacts.mapM_Forall2 in H. apply wide_forms. induction H as [|x w xs ws E _ IH]; constructor; auto. eapply from_utf8_wide; eauto.
Qed.

Section Values.
Variable to_local : wstr -> outcome str.
Variable from_local : str -> outcome wstr.
Variable wlexical_cast : nat -> wstr -> option Z.
Variable wide_string : nat.
Variable wide_code : wstr -> Z.

(** The corresponding narrow conversion. *)
Definition via_utf8 (n : nat) (s : str) : option Z :=
  match from_utf8 s with Ok w => wlexical_cast n w | _ => None end.

Notation wvalidate := (wvalidate to_local wlexical_cast wide_string wide_code).
Notation wtyped := (wtyped to_local from_local wlexical_cast wide_string wide_code).

Lemma widen_eqb a b : wstr_eqb (widen a) (widen b) = str_eqb a b.
Proof.
  apply eq_true_iff_eq. rewrite wstr_eqb_eq, str_eqb_eq. split; [|congruence].
  unfold widen. revert b. induction a as [|x a IH]; destruct b as [|y b]; try discriminate; auto. cbn [map]. intros [= H1 H2].
  apply (f_equal ascii_of_N) in H1. rewrite !ascii_N_embedding in H1. subst. f_equal. now apply IH.
Qed.

Lemma wbool_ascii tok b : ascii7 tok -> (wbool_of_string to_local (widen tok) = Ok b <-> bool_of_string tok = Ok b).
Proof.
  intros Ha. unfold wbool_of_string, bool_of_string. rewrite wtolower_widen, (mapM_tolower_ascii Ha) by auto. cbn [bind].
  rewrite !widen_eqb. replace (is_empty (widen (map lower_ascii tok))) with (is_empty (map lower_ascii tok)) by now destruct tok.
  destruct (is_empty _ || _ || _ || _ || _); [reflexivity|]. destruct (str_eqb _ _ || _ || _ || _); [reflexivity|].
  split; intros H; [apply bind_Ok in H; destruct H as (? & _ & H)|]; discriminate.
Qed.

Lemma wbool_Ok w b : wbool_of_string to_local w = Ok b -> exists tok, w = widen tok /\ ascii7 tok.
Proof.
  unfold wbool_of_string. intros H. apply bind_Ok in H. destruct H as (l & Hl & H).
  assert (Hw : forall word, ascii7 word -> wstr_eqb l (widen word) = true -> exists tok, w = widen tok /\ ascii7 tok).
  { intros word Hword E. apply wstr_eqb_eq in E. subst l. eapply wtolower_to_ascii; eauto. }
  destruct (is_empty l) eqn:E0; [apply (Hw []); [constructor|now destruct l]|].
  repeat match type of H with
  | context [wstr_eqb l (widen ?x)] => destruct (wstr_eqb l (widen x)) eqn:?E; [apply (Hw x); [repeat constructor|assumption]|]
  end.
  cbn [orb] in H. apply bind_Ok in H. destruct H as (? & _ & H). discriminate.
Qed.

Lemma single_same ws xs b w : Forall2 utf8_text ws xs -> wget_single_string ws b = Ok w ->
  exists x, get_single_string xs b = Ok x /\ utf8_text w x.
Proof.
  intros H. destruct H as [|w1 x1 ws xs H1 H].
  - cbn. destruct b; [|discriminate]. intros [= <-]. exists []. split; auto. constructor.
  - destruct H; cbn; [|discriminate]. intros [= <-]. eauto.
Qed.

Lemma wpush_sim t welem elem :
  (forall w x a, utf8_text w x -> welem [w] = (a, Ok tt) -> elem [x] = (a, Ok tt)) ->
  forall ws xs, Forall2 utf8_text ws xs -> forall tv vs, wpush_tokens t welem tv ws = (vs, Ok tt) -> push_tokens t elem tv xs = (vs, Ok tt).
Proof.
  intros He ws xs H. induction H as [|w x ws xs Hw _ IH]; intros tv vs; cbn [wpush_tokens push_tokens]; auto.
  destruct (welem [w]) as [a [[]|e|u|]] eqn:E; try discriminate. apply (He w x) in E; auto. rewrite E.
  destruct (any_cast t a); [|discriminate]. apply IH.
Qed.

Lemma wvalidate_sim t : no_string t -> forall v ws xs a, Forall2 utf8_text ws xs ->
  wvalidate t v ws = (a, Ok tt) -> validate via_utf8 t v xs = (a, Ok tt).
Proof.
  induction t as [| |n|t IH|t IH]; intros Hn v ws xs a Hw H; cbn [Wide.wvalidate Values.validate no_string] in *; try contradiction.
  - unfold wvalidate_bool, validate_bool in *. apply assign_or_Ok in H. apply assign_or_Ok. destruct H as (x & H & ->). exists x. split; auto.
    apply bind_Ok in H. destruct H as ([] & -> & H). apply bind_Ok in H. destruct H as (s & Hs & H).
    destruct (single_same _ _ _ _ Hw Hs) as (s' & -> & Hss). cbn [bind]. destruct (wbool_Ok _ _ H) as (tok & -> & Ha).
    rewrite <- (utf8_text_fun _ _ _ (widen_text tok Ha) Hss). now apply wbool_ascii.
  - unfold wvalidate_lex, validate_lex in *. apply assign_or_Ok in H. apply assign_or_Ok. destruct H as (x & H & ->). exists x. split; auto.
    apply bind_Ok in H. destruct H as ([] & -> & H). apply bind_Ok in H. destruct H as (s & Hs & H).
    destruct (single_same _ _ _ _ Hw Hs) as (s' & -> & Hss). cbn [bind]. unfold via_utf8. rewrite (from_utf8_text _ _ Hss).
    destruct (wlexical_cast n s); auto. apply bind_Ok in H. destruct H as (? & _ & H). discriminate.
  - unfold wvalidate_vec, validate_vec in *. cbv zeta in *. destruct (any_cast _ _) as [[| | |t' vs|]|]; try discriminate.
    destruct (wpush_tokens t _ vs ws) as [vs' r] eqn:E. injection H as <- ->.
    rewrite (wpush_sim t (fun ys => wvalidate t None ys) (fun ys => validate via_utf8 t None ys)) with (ws := ws) (vs := vs'); auto. intros w x a Hx Ex. apply (IH Hn None [w]); auto.
  - unfold wvalidate_opt, validate_opt in *. apply assign_or_Ok in H. apply assign_or_Ok. destruct H as (x & H & ->). exists x. split; auto.
    apply bind_Ok in H. destruct H as ([] & -> & H). apply bind_Ok in H. destruct H as (s & Hs & H).
    destruct (single_same _ _ _ _ Hw Hs) as (s' & -> & Hss). cbn [bind].
    destruct (wvalidate t None ws) as [b [[]|e|u|]] eqn:E; try discriminate. now rewrite (IH Hn None ws xs b Hw E).
Qed.

Lemma xparse_sim tv v ws xs a : no_string (tv_type tv) -> Forall2 utf8_text ws xs ->
  wtv_xparse to_local wlexical_cast wide_string wide_code tv v ws = (a, Ok tt) -> tv_xparse via_utf8 tv v xs = (a, Ok tt).
Proof.
  intros Hn Hw H. unfold wtv_xparse, tv_xparse in *. destruct Hw as [|w x ws xs Hw1 Hw].
  - destruct (tv_implicit tv) as [[iv txt]|]; auto. eapply wvalidate_sim; eauto.
  - eapply wvalidate_sim; eauto.
Qed.

Lemma converts_via t tok w x : utf8_text w tok -> SpecStore.converts via_utf8 t tok x -> no_string t -> wconverts wlexical_cast t w x.
Proof.
  intros Hw H. induction H; cbn [no_string]; intros Hn; try contradiction; try (econstructor; eauto; fail).
  constructor. unfold via_utf8 in H. now rewrite (from_utf8_text _ _ Hw) in H.
Qed.

Lemma wconverts_type t w x : wconverts wlexical_cast t w x -> value_ty x = t.
Proof. induction 1; reflexivity. Qed.

Lemma wconverts_validate t w x : wconverts wlexical_cast t w x -> wvalidate t None [w] = (Some x, Ok tt).
Proof.
  induction 1 as [n w z H|w tok Hw Ha Hs|w tok Hw Ha Hs|t w x H IH|t w x H IH]; cbn [Wide.wvalidate].
  - unfold wvalidate_lex. cbn. now rewrite H.
  - unfold wvalidate_bool. cbn [check_first_occurrence any_empty wget_single_string bind].
    rewrite (widen_unique _ _ Ha Hw). replace (wbool_of_string to_local (widen tok)) with (Ok (VBool true)); auto.
    symmetry. apply wbool_ascii; auto. now apply bool_of_string_true.
  - unfold wvalidate_bool. cbn [check_first_occurrence any_empty wget_single_string bind].
    rewrite (widen_unique _ _ Ha Hw). replace (wbool_of_string to_local (widen tok)) with (Ok (VBool false)); auto.
    symmetry. apply wbool_ascii; auto. now apply bool_of_string_false.
  - unfold wvalidate_opt. cbn [check_first_occurrence any_empty wget_single_string bind].
    rewrite IH. rewrite <- (wconverts_type _ _ _ H), any_cast_ty. reflexivity.
  - unfold wvalidate_vec. cbv zeta. cbn [any_empty]. rewrite cast_nil. cbn [wpush_tokens].
    rewrite IH. rewrite <- (wconverts_type _ _ _ H), any_cast_ty. reflexivity.
Qed.

(** A parse of wide occurrences succeeds as the narrow parse of their UTF-8 forms does. *)
Lemma parsed_all_sim ul tv : no_string (tv_type tv) -> forall occs a b, parsed_all (wtyped tv) true a occs b ->
  exists woccs occs', Forall2 (fun xs ws => mapM from_utf8 xs = Ok ws) occs woccs
    /\ Forall2 (Forall2 utf8_text) woccs occs' /\ parsed_all (typed via_utf8 ul tv) false a occs' b.
Proof.
  intros Hn occs a b H. induction H as [a|a xs a' occs b H1 _ (woccs & occs' & IH1 & IH2 & IH3)].
  - exists [], []. split; [auto|]. split; [auto|]. constructor.
  - cbn [Wide.wtyped vs_parse] in H1. unfold wcodecvt_parse in H1.
    destruct (mapM from_utf8 xs) as [ws|e|u|] eqn:E; try discriminate.
    destruct (decoded_forms _ _ E) as [ys Hy]. exists (ws :: woccs), (ys :: occs'). split; [auto|]. split; [auto|].
    econstructor; [|exact IH3]. cbn [typed vs_parse]. unfold codecvt_parse. eapply xparse_sim; eauto.
Qed.

Lemma concat_text woccs occs : Forall2 (Forall2 utf8_text) woccs occs -> Forall2 utf8_text (List.concat woccs) (List.concat occs).
Proof. induction 1; cbn; auto. now apply Forall2_app. Qed.

Lemma converts_all t ws xs ys : no_string t -> Forall2 utf8_text ws xs -> Forall2 (SpecStore.converts via_utf8 t) xs ys ->
  Forall2 (wconverts wlexical_cast t) ws ys.
Proof.
  intros Hn H. revert ys. induction H as [|w x ws xs Hw _ IH]; intros ys Hy; inversion Hy; subst; constructor; auto.
  eapply converts_via; eauto.
Qed.

End Values.

(** ** Sources *)

Lemma wparsed_occurrences u p name : wparsed u = Ok p ->
  wp_utf8 p = u /\ Forall2 (fun xs ws => mapM from_utf8 xs = Ok ws) (occurrences (pr_options u) name) (woccurrences (wp_options p) name).
Proof.
  unfold wparsed. intros H. apply bind_Ok in H. destruct H as (ws & H & [= <-]). cbn [wp_utf8 wp_options]. split; auto.
  apply SemFacts.mapM_Forall2 in H. unfold occurrences, woccurrences.
  induction H as [|o w os ws Ho _ IH]; [constructor|]. unfold woption_from_option in Ho.
  apply bind_Ok in Ho. destruct Ho as (v & Hv & Ho). apply bind_Ok in Ho. destruct Ho as (g & Hg & [= <-]).
  cbn [filter wo_key wo_unreg]. destruct (str_eqb (po_key o) name && negb (po_unreg o)); cbn [map]; auto.
Qed.

Lemma wide_source_occurrences p name : wide_source p ->
  Forall2 (fun xs ws => mapM from_utf8 xs = Ok ws) (occurrences (pr_options (wp_utf8 p)) name) (woccurrences (wp_options p) name).
Proof.
  intros [fuel c wargs H|content ds allow H].
  - unfold wparser_run in H. apply bind_Ok in H. destruct H as (args & _ & H). apply bind_Ok in H. destruct H as (u & _ & H).
    apply (wparsed_occurrences _ _ name) in H. destruct H as [-> H]. exact H.
  - unfold wparse_config_file in H. do 4 (apply bind_Ok in H; destruct H as (? & _ & H)).
    apply (wparsed_occurrences _ _ name) in H. destruct H as [-> H]. exact H.
Qed.

Lemma same_decoding xss wss wss' : Forall2 (fun xs ws => mapM from_utf8 xs = Ok ws) xss wss ->
  Forall2 (fun xs ws => mapM from_utf8 xs = Ok ws) xss wss' -> wss = wss'.
Proof. intros H. revert wss'. induction H; intros wss' H'; inversion H'; subst; auto. f_equal; [congruence|auto]. Qed.

Definition narrow_history (ps : list wparsed_options) : history := map (fun p => (wp_utf8 p, true)) ps.

Lemma wstores_stores vm ps vm' : wstores vm ps vm' <-> stores vm (narrow_history ps) vm'.
Proof.
  split.
  - induction 1; cbn; econstructor; eauto.
  - revert vm. induction ps as [|p ps IH]; intros vm H; inversion H; subst; econstructor; eauto.
Qed.
