(** Facts about the value semantics of the library. *)

From Coq Require Import List Ascii String NArith ZArith Bool Arith Lia.
From Verif Require Import Base Errors Spec BaseFacts Values OptDesc SpecLookup LookupFacts Cmdline Parsers
  VarMap SpecCmdline SpecStore StoreFacts.
Import ListNotations.

(** ** Booleans *)

Lemma spells_map words tok :
  spells words tok <-> In (map lower_ascii tok) (map (map lower_ascii) words).
Proof.
  unfold spells. rewrite Exists_exists, in_map_iff. split.
  - intros (w & Hw & H). exists w. split; auto. symmetry. now apply same_up_to_case_map.
  - intros (w & E & Hw). exists w. split; auto. now apply same_up_to_case_map.
Qed.

Lemma spells_true tok :
  spells true_words tok <->
  (is_empty (map lower_ascii tok) || str_eqb (map lower_ascii tok) $"on" || str_eqb (map lower_ascii tok) $"yes"
   || str_eqb (map lower_ascii tok) $"1" || str_eqb (map lower_ascii tok) $"true") = true.
Proof.
  rewrite spells_map, !orb_true_iff, !str_eqb_eq, is_empty_true. cbn [true_words map In].
  change (map lower_ascii $"on") with $"on". change (map lower_ascii $"yes") with $"yes".
  change (map lower_ascii $"1") with $"1". change (map lower_ascii $"true") with $"true".
  intuition.
Qed.

Lemma spells_false tok :
  spells false_words tok <->
  (str_eqb (map lower_ascii tok) $"off" || str_eqb (map lower_ascii tok) $"no"
   || str_eqb (map lower_ascii tok) $"0" || str_eqb (map lower_ascii tok) $"false") = true.
Proof.
  rewrite spells_map, !orb_true_iff, !str_eqb_eq. cbn [false_words map In].
  change (map lower_ascii $"off") with $"off". change (map lower_ascii $"no") with $"no".
  change (map lower_ascii $"0") with $"0". change (map lower_ascii $"false") with $"false".
  intuition.
Qed.

Lemma bool_of_string_true tok : ascii7 tok -> spells true_words tok -> bool_of_string tok = Ok (VBool true).
Proof.
  intros Ha H. unfold bool_of_string. rewrite (mapM_tolower_ascii Ha). cbn [bind].
  apply spells_true in H. now rewrite H.
Qed.

Lemma true_false_exclusive tok : spells true_words tok -> ~ spells false_words tok.
Proof.
  rewrite !spells_map. cbn [true_words false_words map In]. intros [E|[E|[E|[E|[E|[]]]]]]; rewrite <- E; intuition discriminate.
Qed.

Lemma bool_of_string_false tok : ascii7 tok -> spells false_words tok -> bool_of_string tok = Ok (VBool false).
Proof.
  intros Ha H. unfold bool_of_string. rewrite (mapM_tolower_ascii Ha). cbn [bind].
  destruct (is_empty _ || _ || _ || _ || _) eqn:E.
  - apply spells_true in E. contradiction (true_false_exclusive tok).
  - apply spells_false in H. now rewrite H.
Qed.

Lemma bool_of_string_other tok :
  ascii7 tok -> ~ spells (true_words ++ false_words) tok ->
  bool_of_string tok = Throw (mk_invalid_bool_value (map lower_ascii tok)).
Proof.
  intros Ha H. unfold bool_of_string. rewrite (mapM_tolower_ascii Ha). cbn [bind].
  unfold spells in H. rewrite Exists_app in H.
  destruct (is_empty _ || _ || _ || _ || _) eqn:E.
  - apply spells_true in E. tauto.
  - destruct (str_eqb _ _ || _ || _ || _) eqn:E2; [|reflexivity]. apply spells_false in E2. tauto.
Qed.

Lemma bool_of_string_non_ascii tok : ~ ascii7 tok -> bool_of_string tok = Undef UB_ctype.
Proof. intros Ha. unfold bool_of_string. now rewrite (mapM_tolower_not_ascii Ha). Qed.

(** ** Types *)

Lemma vty_eqb_refl t : vty_eqb t t = true.
Proof. induction t; cbn; auto. apply Nat.eqb_refl. Qed.
Lemma vty_eqb_eq a : forall b, vty_eqb a b = true -> a = b.
Proof.
  induction a; destruct b; cbn; try discriminate; auto.
  - intros E. apply Nat.eqb_eq in E. congruence.
  - intros E. f_equal. auto.
  - intros E. f_equal. auto.
Qed.
Lemma any_cast_ty x : any_cast (value_ty x) (Some x) = Some x.
Proof. cbn. now rewrite vty_eqb_refl. Qed.

Lemma cast_nil t : any_cast (TVec t) (Some (VVec t [])) = Some (VVec t []).
Proof. apply (any_cast_ty (VVec t [])). Qed.

Definition fits_type (t : vty) (a : any) : Prop := match a with Some x => value_ty x = t | None => True end.

Section Semantics.
Variable lexical_cast : nat -> str -> option Z.
Variable utf8_to_local : str -> outcome str.
Notation validate := (validate lexical_cast).
Notation converts := (converts lexical_cast).
Notation rejects := (rejects lexical_cast).

Lemma assign_or_Ok v r a : assign_or v r = (a, Ok tt) <-> exists x, r = Ok x /\ a = Some x.
Proof.
  destruct r; cbn; split; try (intros [= ]); try (intros (x & E & _); discriminate); eauto.
  intros (x & E & ->). now injection E as ->.
Qed.

Lemma assign_or_fits t v r a r' :
  fits_type t v -> (forall x, r = Ok x -> value_ty x = t) -> assign_or v r = (a, r') ->
  fits_type t a /\ (r' = Ok tt -> a <> None).
Proof.
  intros Hv Hr. destruct r; cbn; intros [= <- <-]; split; auto; try discriminate. cbn. auto.
Qed.

Lemma push_tokens_spec t elem : forall xs tv vs r, push_tokens t elem tv xs = (vs, r) ->
  (r = Ok tt /\ exists ys, vs = tv ++ ys /\ Forall2 (fun x y => exists a, elem [x] = (a, Ok tt) /\ any_cast t a = Some y) xs ys)
  \/ r <> Ok tt.
Proof.
  induction xs as [|x xs IH]; intros tv vs r H; cbn [push_tokens] in H.
  - injection H as <- <-. left. split; auto. exists []. now rewrite app_nil_r.
  - destruct (elem [x]) as [a [[]|e|u|]] eqn:Ee; try (injection H as <- <-; right; discriminate).
    destruct (any_cast t a) as [y|] eqn:Ea; [|injection H as <- <-; right; discriminate].
    destruct (IH _ _ _ H) as [(-> & ys & -> & Hf)|Hr]; [|auto]. left. split; auto.
    exists (y :: ys). rewrite <- app_assoc. split; auto. constructor; eauto.
Qed.

Lemma push_tokens_app t elem good ys : 
  Forall2 (fun x y => exists a, elem [x] = (a, Ok tt) /\ any_cast t a = Some y) good ys ->
  forall rest tv, push_tokens t elem tv (good ++ rest) = push_tokens t elem (tv ++ ys) rest.
Proof.
  induction 1 as [|x y xs ys (a & E1 & E2) _ IH]; intros rest tv; cbn [app push_tokens]; [now rewrite app_nil_r|].
  rewrite E1, E2, IH, <- app_assoc. reflexivity.
Qed.

Lemma validate_vec_fits t elem v xs a r :
  fits_type (TVec t) v -> validate_vec t elem v xs = (a, r) -> fits_type (TVec t) a /\ a <> None.
Proof.
  intros Hv H. unfold validate_vec in H. cbv zeta in H.
  assert (E : exists vs, any_cast (TVec t) (if any_empty v return option value then Some (VVec t []) else v) = Some (VVec t vs)).
  { destruct v as [x|]; cbn [any_empty].
    - cbn in Hv. destruct x; try discriminate. injection Hv as ->. exists vs. apply (any_cast_ty (VVec t vs)).
    - exists []. apply (any_cast_ty (VVec t [])). }
  destruct E as [vs E]. rewrite E in H. destruct (push_tokens t elem vs xs) as [vs' r']. injection H as <- _.
  split; [reflexivity|discriminate].
Qed.

Lemma validate_fits t : forall v xs a r,
  fits_type t v -> validate t v xs = (a, r) -> fits_type t a /\ (r = Ok tt -> a <> None).
Proof.
  destruct t; intros v xs a r Hv H; cbn [Values.validate] in H.
  - eapply assign_or_fits; [exact Hv| |exact H]. intros x Hx.
    apply bind_Ok in Hx. destruct Hx as ([] & _ & Hx). apply bind_Ok in Hx. destruct Hx as (s & _ & Hx).
    unfold bool_of_string in Hx. apply bind_Ok in Hx. destruct Hx as (l & _ & Hx).
    destruct (is_empty l || _ || _ || _ || _); [now injection Hx as <-|].
    destruct (_ || _ || _ || _); [now injection Hx as <-|discriminate].
  - eapply assign_or_fits; [exact Hv| |exact H]. intros x Hx.
    apply bind_Ok in Hx. destruct Hx as ([] & _ & Hx). apply bind_Ok in Hx. destruct Hx as (s & _ & Hx).
    now injection Hx as <-.
  - eapply assign_or_fits; [exact Hv| |exact H]. intros x Hx.
    apply bind_Ok in Hx. destruct Hx as ([] & _ & Hx). apply bind_Ok in Hx. destruct Hx as (s & _ & Hx).
    destruct (lexical_cast n s); [now injection Hx as <-|discriminate].
  - destruct (validate_vec_fits _ _ _ _ _ _ Hv H). auto.
  - eapply assign_or_fits; [exact Hv| |exact H]. intros x Hx.
    apply bind_Ok in Hx. destruct Hx as ([] & _ & Hx). apply bind_Ok in Hx. destruct Hx as (s & _ & Hx).
    destruct (validate t None xs) as [a' [[]|e|u|]]; try discriminate.
    destruct (any_cast t a'); [now injection Hx as <-|discriminate].
Qed.

(** ** Tokens *)

Lemma converts_type t tok x : converts t tok x -> value_ty x = t.
Proof. induction 1; reflexivity. Qed.

Lemma converts_validate t tok x : converts t tok x -> validate t None [tok] = (Some x, Ok tt).
Proof.
  induction 1; cbn [Values.validate].
  - reflexivity.
  - unfold validate_lex. cbn. now rewrite H.
  - unfold validate_bool. cbn [check_first_occurrence any_empty get_single_string bind].
    now rewrite bool_of_string_true.
  - unfold validate_bool. cbn [check_first_occurrence any_empty get_single_string bind].
    now rewrite bool_of_string_false.
  - unfold validate_opt. cbn [check_first_occurrence any_empty get_single_string bind].
    rewrite IHconverts. rewrite <- (converts_type _ _ _ H), any_cast_ty. reflexivity.
  - unfold validate_vec. cbv zeta. cbn [any_empty]. rewrite cast_nil. cbn [push_tokens].
    rewrite IHconverts. rewrite <- (converts_type _ _ _ H), any_cast_ty. reflexivity.
Qed.

Lemma rejects_validate t tok e : rejects t tok e -> exists a, validate t None [tok] = (a, Throw e).
Proof.
  induction 1 as [n tok H|tok l Ha Hs Hl|t tok e H [a IH]|t tok e H [a IH]]; cbn [Values.validate].
  - exists None. unfold validate_lex. cbn. now rewrite H.
  - exists None. unfold validate_bool. cbn [check_first_occurrence any_empty get_single_string bind].
    rewrite bool_of_string_other by auto. apply lowered_map in Hl. now subst l.
  - exists None. unfold validate_opt. cbn [check_first_occurrence any_empty get_single_string bind]. now rewrite IH.
  - exists (Some (VVec t [])). unfold validate_vec. cbv zeta. cbn [any_empty]. rewrite cast_nil. cbn [push_tokens].
    now rewrite IH.
Qed.

(** Every token is converted or rejected; only for non-ASCII booleans the behaviour is
    undefined. *)
Lemma spells_dec words tok : spells words tok \/ ~ spells words tok.
Proof.
  rewrite spells_map. destruct (in_dec (list_eq_dec ascii_dec) (map lower_ascii tok) (map (map lower_ascii) words)); auto.
Qed.

Lemma convert_cases t tok :
  (exists x, converts t tok x) \/ (exists e, rejects t tok e)
  \/ (~ ascii7 tok /\ exists a, validate t None [tok] = (a, Undef UB_ctype)).
Proof.
  induction t as [| |n|t IH|t IH].
  - destruct (ascii7_dec tok) as [Ha|Ha].
    + destruct (spells_dec true_words tok); [left; eexists; now apply cv_true|].
      destruct (spells_dec false_words tok); [left; eexists; now apply cv_false|].
      right. left. exists (mk_invalid_bool_value (map lower_ascii tok)). apply rj_bool; auto; [|now apply lowered_map].
      unfold spells. rewrite Exists_app. tauto.
    + right. right. split; auto. exists None. cbn [Values.validate]. unfold validate_bool.
      cbn [check_first_occurrence any_empty get_single_string bind]. now rewrite bool_of_string_non_ascii.
  - left. eexists. constructor.
  - destruct (lexical_cast n tok) as [z|] eqn:E; [left; eexists; constructor; eauto|].
    right. left. eexists. constructor; eauto.
  - destruct IH as [[x Hx]|[[e He]|[Ha [a Hv]]]].
    + left. eexists. constructor. eauto.
    + right. left. eexists. apply rj_vec. eauto.
    + right. right. split; auto. cbn [Values.validate]. unfold validate_vec. cbv zeta. cbn [any_empty].
      rewrite cast_nil. cbn [push_tokens]. rewrite Hv. eauto.
  - destruct IH as [[x Hx]|[[e He]|[Ha [a Hv]]]].
    + left. eexists. constructor. eauto.
    + right. left. eexists. apply rj_opt. eauto.
    + right. right. split; auto. cbn [Values.validate]. unfold validate_opt.
      cbn [check_first_occurrence any_empty get_single_string bind]. rewrite Hv. cbn. eauto.
Qed.

Lemma validate_converts t tok a : validate t None [tok] = (a, Ok tt) -> exists x, a = Some x /\ converts t tok x.
Proof.
  intros H. destruct (convert_cases t tok) as [[x Hx]|[[e He]|[_ [a' Hv]]]].
  - rewrite (converts_validate _ _ _ Hx) in H. injection H as <-. eauto.
  - destruct (rejects_validate _ _ _ He) as [a' E]. rewrite E in H. discriminate.
  - rewrite Hv in H. discriminate.
Qed.

(** ** Scalars *)

Lemma scalar_value_Ok t tok : scalar t -> forall x,
  converts t tok x -> validate t None [tok] = (Some x, Ok tt).
Proof. intros _. apply converts_validate. Qed.

Lemma scalar_second t x xs :
  scalar t -> validate t (Some x) xs = (Some x, Throw mk_multiple_occurrences).
Proof. destruct t; cbn; intros H; try contradiction; reflexivity. Qed.

(** ** UTF-8 *)

Lemma mapM_Forall2 {A B} (f : A -> outcome B) xs ys :
  mapM f xs = Ok ys <-> Forall2 (fun x y => f x = Ok y) xs ys.
Proof.
  split.
  - revert ys. induction xs as [|x xs IH]; intros ys H; cbn [mapM] in H.
    + injection H as <-. constructor.
    + apply bind_Ok in H. destruct H as (y & E & H). apply bind_Ok in H. destruct H as (ys' & E' & H).
      injection H as <-. constructor; auto.
  - induction 1 as [|x y xs ys E _ IH]; cbn [mapM]; auto. rewrite E. cbn [bind]. rewrite IH. reflexivity.
Qed.

Lemma codecvt_decoded xparse v utf8 xs ys :
  decoded utf8_to_local utf8 xs ys ->
  codecvt_parse utf8_to_local xparse v xs utf8 = xparse v ys.
Proof.
  unfold decoded, codecvt_parse. destruct utf8; [|now intros ->].
  intros H. apply mapM_Forall2 in H. now rewrite H.
Qed.

Lemma codecvt_Ok xparse v utf8 xs a :
  codecvt_parse utf8_to_local xparse v xs utf8 = (a, Ok tt) ->
  exists ys, decoded utf8_to_local utf8 xs ys /\ xparse v ys = (a, Ok tt).
Proof.
  unfold decoded, codecvt_parse. destruct utf8; [|eauto].
  destruct (mapM utf8_to_local xs) as [ys|e|u|] eqn:E; intros H; try discriminate.
  exists ys. split; auto. now apply mapM_Forall2.
Qed.

Lemma decoded_length utf8 xs ys : decoded utf8_to_local utf8 xs ys -> List.length ys = List.length xs.
Proof. unfold decoded. destruct utf8; [|now intros ->]. induction 1; cbn; auto. Qed.

Lemma decoded_nil utf8 ys : decoded utf8_to_local utf8 [] ys -> ys = [].
Proof. intros H. apply decoded_length in H. now destruct ys. Qed.

Lemma decoded_not_nil utf8 xs ys : decoded utf8_to_local utf8 xs ys -> xs <> [] -> ys <> [].
Proof. intros H Hx ->. apply decoded_length in H. now destruct xs. Qed.

(** ** Vectors *)

Lemma tv_xparse_no_implicit tv v xs :
  xs <> [] \/ tv_implicit tv = None -> tv_xparse lexical_cast tv v xs = validate (tv_type tv) v xs.
Proof.
  unfold tv_xparse. destruct xs; [|auto]. intros [H| ->]; [contradiction|auto].
Qed.

Definition vec_content (t : vty) (a : any) (vs : list value) : Prop :=
  a = Some (VVec t vs) \/ (a = None /\ vs = []).

Lemma vec_cast t a vs : vec_content t a vs ->
  any_cast (TVec t) (if any_empty a return option value then Some (VVec t []) else a) = Some (VVec t vs).
Proof. intros [->|[-> ->]]; cbn [any_empty]; apply (any_cast_ty (VVec t _)). Qed.

Lemma converts_elem t xs ys : Forall2 (converts t) xs ys ->
  Forall2 (fun x y => exists a, validate t None [x] = (a, Ok tt) /\ any_cast t a = Some y) xs ys.
Proof.
  induction 1 as [|x y xs ys H _ IH]; constructor; auto. exists (Some y). split; [now apply converts_validate|].
  rewrite <- (converts_type _ _ _ H). apply any_cast_ty.
Qed.

Lemma elem_converts t xs ys :
  Forall2 (fun x y => exists a, validate t None [x] = (a, Ok tt) /\ any_cast t a = Some y) xs ys ->
  Forall2 (converts t) xs ys.
Proof.
  induction 1 as [|x y xs ys (a & H1 & H2) _ IH]; constructor; auto.
  apply validate_converts in H1. destruct H1 as (z & -> & H1).
  rewrite <- (converts_type _ _ _ H1), any_cast_ty in H2. now injection H2 as <-.
Qed.

Lemma vector_appends t a vs xs ys :
  vec_content t a vs -> Forall2 (converts t) xs ys ->
  validate (TVec t) a xs = (Some (VVec t (vs ++ ys)), Ok tt).
Proof.
  intros Ha Hc. cbn [Values.validate]. unfold validate_vec. cbv zeta. rewrite (vec_cast _ _ _ Ha).
  pose proof (push_tokens_app t (fun ys => validate t None ys) _ _ (converts_elem _ _ _ Hc) [] vs) as E. rewrite app_nil_r in E. rewrite E.
  reflexivity.
Qed.

Lemma vector_stops t a vs good ys bad e rest :
  vec_content t a vs -> Forall2 (converts t) good ys -> rejects t bad e ->
  validate (TVec t) a (good ++ bad :: rest) = (Some (VVec t (vs ++ ys)), Throw e).
Proof.
  intros Ha Hc Hr. cbn [Values.validate]. unfold validate_vec. cbv zeta. rewrite (vec_cast _ _ _ Ha).
  rewrite (push_tokens_app t (fun ys => validate t None ys) _ _ (converts_elem _ _ _ Hc)). cbn [push_tokens].
  destruct (rejects_validate _ _ _ Hr) as [a' ->]. reflexivity.
Qed.

Lemma vector_Ok t a vs xs b :
  vec_content t a vs -> validate (TVec t) a xs = (b, Ok tt) ->
  exists ys, Forall2 (converts t) xs ys /\ b = Some (VVec t (vs ++ ys)).
Proof.
  intros Ha H. cbn [Values.validate] in H. unfold validate_vec in H. cbv zeta in H. rewrite (vec_cast _ _ _ Ha) in H.
  destruct (push_tokens t _ vs xs) as [vs' r] eqn:E. injection H as <- ->.
  apply push_tokens_spec in E. destruct E as [(_ & ys & -> & Hf)|E]; [|congruence].
  exists ys. split; auto. now apply elem_converts.
Qed.

Definition decoded_all (utf8 : bool) (occs occs' : list (list str)) : Prop :=
  Forall2 (decoded utf8_to_local utf8) occs occs'.

(** All occurrences of a vector option. *)
Lemma vector_all tv t utf8 :
  tv_type tv = TVec t ->
  forall occs a vs b, tv_implicit tv = None \/ ~ In [] occs -> vec_content t a vs ->
  parsed_all (typed lexical_cast utf8_to_local tv) utf8 a occs b ->
  exists occs' ys, decoded_all utf8 occs occs' /\ Forall2 (converts t) (List.concat occs') ys
    /\ vec_content t b (vs ++ ys).
Proof.
  intros Ht. induction occs as [|xs occs IH]; intros a vs b Hi Ha H.
  - inversion H; subst. exists [], []. split; [constructor|]. split; [constructor|]. now rewrite app_nil_r.
  - inversion H as [|? ? a' ? ? Hp Hr]; subst. cbn [typed vs_parse] in Hp.
    apply codecvt_Ok in Hp. destruct Hp as (zs & Hz & Hp).
    assert (Hn : zs <> [] \/ tv_implicit tv = None).
    { destruct Hi as [Hi|Hi]; auto. left. eapply decoded_not_nil; eauto. intros ->. apply Hi. now left. }
    rewrite (tv_xparse_no_implicit _ _ _ Hn), Ht in Hp.
    apply (vector_Ok _ _ _ _ _ Ha) in Hp. destruct Hp as (ys & Hc & ->).
    destruct (IH (Some (VVec t (vs ++ ys))) (vs ++ ys) b) as (occs' & ys' & H1 & H2 & H3); auto.
    { destruct Hi as [Hi|Hi]; auto. right. intros Hin. apply Hi. now right. }
    { left. reflexivity. }
    exists (zs :: occs'), (ys ++ ys'). split; [constructor; auto|]. split.
    + cbn [List.concat]. now apply Forall2_app.
    + now rewrite app_assoc.
Qed.

(** ** Scalars: at most one value *)

Lemma typed_second tv x xs zs utf8 :
  scalar (tv_type tv) -> decoded utf8_to_local utf8 xs zs -> xs <> [] \/ tv_implicit tv = None ->
  vs_parse (typed lexical_cast utf8_to_local tv) (Some x) xs utf8 = (Some x, Throw mk_multiple_occurrences).
Proof.
  intros Hs Hd Hi. cbn [typed vs_parse]. rewrite (codecvt_decoded _ _ _ _ _ Hd).
  rewrite tv_xparse_no_implicit; [now apply scalar_second|].
  destruct Hi as [Hi|Hi]; auto. left. eapply decoded_not_nil; eauto.
Qed.

Lemma typed_implicit tv a iv txt utf8 :
  tv_implicit tv = Some (iv, txt) ->
  vs_parse (typed lexical_cast utf8_to_local tv) a [] utf8 = (Some iv, Ok tt).
Proof.
  intros H. cbn [typed vs_parse]. rewrite (codecvt_decoded _ _ _ [] []).
  - unfold tv_xparse. now rewrite H.
  - unfold decoded. destruct utf8; [constructor|auto].
Qed.

Lemma typed_Ok_some tv a xs utf8 b :
  fits_type (tv_type tv) a -> vs_parse (typed lexical_cast utf8_to_local tv) a xs utf8 = (b, Ok tt) -> b <> None.
Proof.
  intros Ha H. cbn [typed vs_parse] in H. apply codecvt_Ok in H. destruct H as (zs & _ & H).
  unfold tv_xparse in H. destruct zs as [|z zs].
  - destruct (tv_implicit tv) as [[iv txt]|]; [now injection H as <-|].
    apply validate_fits in H; auto. now apply H.
  - apply validate_fits in H; auto. now apply H.
Qed.

Lemma scalar_Ok tv a xs utf8 b :
  scalar (tv_type tv) -> vs_parse (typed lexical_cast utf8_to_local tv) a xs utf8 = (b, Ok tt) ->
  (a = None \/ (xs = [] /\ tv_implicit tv <> None)) /\ b <> None.
Proof.
  intros Hs H. cbn [typed vs_parse] in H. apply codecvt_Ok in H. destruct H as (zs & Hz & H).
  destruct zs as [|z zs].
  - assert (xs = []) as -> by (apply decoded_length in Hz; now destruct xs).
    unfold tv_xparse in H. destruct (tv_implicit tv) as [[iv txt]|].
    + injection H as <-. split; [|discriminate]. right. split; auto. discriminate.
    + destruct a as [x|]; [rewrite scalar_second in H by auto; discriminate|].
      split; [auto|]. apply validate_fits in H; [now apply H|exact I].
  - cbn [tv_xparse] in H. destruct a as [x|]; [rewrite scalar_second in H by auto; discriminate|].
    split; [auto|]. apply validate_fits in H; [now apply H|exact I].
Qed.

(** All occurrences after the first are bare. *)
Lemma scalar_all tv utf8 : scalar (tv_type tv) -> forall occs a b,
  parsed_all (typed lexical_cast utf8_to_local tv) utf8 a occs b ->
  (a <> None -> Forall (fun xs => xs = [] /\ tv_implicit tv <> None) occs)
  /\ (forall xs occs', occs = xs :: occs' -> Forall (fun xs => xs = [] /\ tv_implicit tv <> None) occs').
Proof.
  intros Hs. induction occs as [|xs occs IH]; intros a b H; [split; [constructor|discriminate]|].
  inversion H as [|? ? a' ? ? Hp Hr]; subst. destruct (scalar_Ok _ _ _ _ _ Hs Hp) as [Ha Hb].
  destruct (IH _ _ Hr) as [IH1 _]. split.
  - intros Hn. constructor; auto. destruct Ha; [contradiction|auto].
  - intros ? ? E. injection E as <- <-. auto.
Qed.

Lemma untyped_second zero x xs zs utf8 :
  decoded utf8_to_local utf8 xs zs ->
  vs_parse (untyped utf8_to_local zero) (Some x) xs utf8 = (Some x, Throw mk_multiple_occurrences).
Proof. intros H. cbn [untyped vs_parse]. now rewrite (codecvt_decoded _ _ _ _ _ H). Qed.

Lemma untyped_Ok zero a xs utf8 b :
  vs_parse (untyped utf8_to_local zero) a xs utf8 = (b, Ok tt) ->
  a = None /\ exists s, b = Some (VString s).
Proof.
  cbn [untyped vs_parse]. intros H. apply codecvt_Ok in H. destruct H as (zs & _ & H).
  unfold untyped_xparse in H. destruct a; cbn [any_empty negb] in H; [discriminate|]. split; auto.
  destruct zs as [|z [|]]; try discriminate; injection H as <-; eauto.
Qed.

End Semantics.

(** ** Type safety *)

Lemma assign_or_keeps v r a r' :
  assign_or v r = (a, r') -> (v <> None -> a <> None) /\ (forall u, r' = Undef u -> r = Undef u).
Proof. destruct r; cbn; intros [= <- <-]; split; auto; intros; discriminate || congruence. Qed.

Lemma bind_Undef {A B} (x : outcome A) (f : A -> outcome B) u :
  bind x f = Undef u -> x = Undef u \/ exists a, x = Ok a /\ f a = Undef u.
Proof. destruct x; cbn; intros H; try discriminate; eauto. left. congruence. Qed.

Lemma first_occurrence_defined v u : check_first_occurrence v <> Undef u.
Proof. unfold check_first_occurrence. destruct (any_empty v); discriminate. Qed.
Lemma single_string_defined xs b u : get_single_string xs b <> Undef u.
Proof. destruct xs as [|x [|]]; cbn; try discriminate. destruct b; discriminate. Qed.

Section TypeSafety.
Variable lexical_cast : nat -> str -> option Z.
Variable utf8_to_local : str -> outcome str.

Lemma push_tokens_undef t elem : (forall x a u, elem [x] = (a, Undef u) -> u = UB_ctype) ->
  forall xs tv vs u, push_tokens t elem tv xs = (vs, Undef u) -> u = UB_ctype.
Proof.
  intros He. induction xs as [|x xs IH]; intros tv vs u H; cbn [push_tokens] in H; [discriminate|].
  destruct (elem [x]) as [a [[]|e|u0|]] eqn:E; try discriminate.
  - destruct (any_cast t a); [eauto|discriminate].
  - injection H as _ <-. eauto.
Qed.

Lemma validate_undef t : forall v xs a u,
  fits_type t v -> validate lexical_cast t v xs = (a, Undef u) -> u = UB_ctype.
Proof.
  induction t as [| |n|t IH|t IH]; intros v xs a u Hv H; cbn [Values.validate] in H.
  - apply assign_or_keeps in H. destruct H as [_ H]. specialize (H _ eq_refl).
    apply bind_Undef in H. destruct H as [H|([] & _ & H)]; [contradiction (first_occurrence_defined _ _ H)|].
    apply bind_Undef in H. destruct H as [H|(s & _ & H)]; [contradiction (single_string_defined _ _ _ H)|].
    destruct (ascii7_dec s) as [Ha|Ha]; [|rewrite bool_of_string_non_ascii in H by auto; congruence].
    unfold bool_of_string in H. rewrite (mapM_tolower_ascii Ha) in H. cbn [bind] in H.
    destruct (is_empty _ || _ || _ || _ || _); [discriminate|]. destruct (_ || _ || _ || _); discriminate.
  - apply assign_or_keeps in H. destruct H as [_ H]. specialize (H _ eq_refl).
    apply bind_Undef in H. destruct H as [H|([] & _ & H)]; [contradiction (first_occurrence_defined _ _ H)|].
    apply bind_Undef in H. destruct H as [H|(s & _ & H)]; [contradiction (single_string_defined _ _ _ H)|]. discriminate.
  - apply assign_or_keeps in H. destruct H as [_ H]. specialize (H _ eq_refl).
    apply bind_Undef in H. destruct H as [H|([] & _ & H)]; [contradiction (first_occurrence_defined _ _ H)|].
    apply bind_Undef in H. destruct H as [H|(s & _ & H)]; [contradiction (single_string_defined _ _ _ H)|].
    destruct (lexical_cast n s); discriminate.
  - unfold validate_vec in H. cbv zeta in H.
    assert (E : exists vs, vec_content t v vs).
    { destruct v as [x|]; [|exists []; right; auto]. cbn in Hv. destruct x; try discriminate. injection Hv as ->.
      exists vs. left. reflexivity. }
    destruct E as [vs E]. rewrite (vec_cast _ _ _ E) in H.
    destruct (push_tokens t _ vs xs) as [vs' r] eqn:Ep. injection H as _ ->.
    eapply push_tokens_undef; [|exact Ep]. intros x a' u' Hx. eapply IH; [|exact Hx]. exact I.
  - apply assign_or_keeps in H. destruct H as [_ H]. specialize (H _ eq_refl).
    apply bind_Undef in H. destruct H as [H|([] & _ & H)]; [contradiction (first_occurrence_defined _ _ H)|].
    apply bind_Undef in H. destruct H as [H|(s & _ & H)]; [contradiction (single_string_defined _ _ _ H)|].
    destruct (validate lexical_cast t None xs) as [a' [[]|e|u'|]] eqn:Ev; try discriminate.
    + destruct (any_cast t a'); discriminate.
    + injection H as <-. eapply IH; [|exact Ev]. exact I.
Qed.

Lemma validate_keeps t v xs a r :
  fits_type t v -> validate lexical_cast t v xs = (a, r) -> v <> None -> a <> None.
Proof.
  destruct t; intros Hv H; cbn [Values.validate] in H; try (now apply (assign_or_keeps _ _ _ _ H)).
  intros _. now apply (validate_vec_fits _ _ _ _ _ _ Hv H).
Qed.

Lemma mapM_undef {A B} (f : A -> outcome B) xs u : (forall x, f x <> Undef u) -> mapM f xs <> Undef u.
Proof.
  intros Hf. induction xs as [|x xs IH]; cbn [mapM]; [discriminate|]. intros H.
  apply bind_Undef in H. destruct H as [H|(y & _ & H)]; [now apply Hf in H|].
  apply bind_Undef in H. destruct H as [H|(z & _ & H)]; [contradiction|discriminate].
Qed.

Lemma codecvt_cases xparse v xs utf8 a r :
  (forall x u, utf8_to_local x <> Undef u) ->
  codecvt_parse utf8_to_local xparse v xs utf8 = (a, r) ->
  (exists ys, xparse v ys = (a, r)) \/ (a = v /\ r <> Ok tt /\ forall u, r <> Undef u).
Proof.
  intros Hl. unfold codecvt_parse. destruct utf8; [|eauto].
  destruct (mapM utf8_to_local xs) as [ys|e|u|] eqn:E; intros H.
  - eauto.
  - injection H as <- <-. right. repeat split; discriminate.
  - exfalso. eapply mapM_undef; [|exact E]. intros x. apply Hl.
  - injection H as <- <-. right. repeat split; discriminate.
Qed.

Lemma xparse_fits tv v xs a r :
  well_typed tv -> fits_type (tv_type tv) v -> tv_xparse lexical_cast tv v xs = (a, r) ->
  fits_type (tv_type tv) a /\ (r = Ok tt -> a <> None) /\ (v <> None -> a <> None)
  /\ (forall u, r = Undef u -> u = UB_ctype).
Proof.
  intros [_ Hi] Hv H. unfold tv_xparse in H.
  assert (Hvd : validate lexical_cast (tv_type tv) v xs = (a, r) ->
    fits_type (tv_type tv) a /\ (r = Ok tt -> a <> None) /\ (v <> None -> a <> None)
    /\ (forall u, r = Undef u -> u = UB_ctype)).
  { intros E. destruct (validate_fits _ _ _ _ _ _ Hv E) as [H1 H2]. split; [auto|]. split; [auto|].
    split; [intros Hn; exact (validate_keeps _ _ _ _ _ Hv E Hn)|]. intros u Hr. subst r. exact (validate_undef _ _ _ _ _ Hv E). }
  destruct xs; auto. destruct (tv_implicit tv) as [[iv txt]|]; auto.
  injection H as <- <-. split; [exact Hi|]. repeat split; discriminate.
Qed.

End TypeSafety.

Lemma library_parse t s a xs utf8 b r :
  library_semantic t s -> fits_type t a -> vs_parse s a xs utf8 = (b, r) ->
  fits_type t b /\ (r = Ok tt -> b <> None) /\ (a <> None -> b <> None)
  /\ (forall u, r = Undef u -> u = UB_ctype).
Proof.
  intros [(lc & ul & tv & -> & <- & Hw & Hu)|(-> & ul & z & -> & Hu)] Ha H.
  - cbn [typed vs_parse] in H. destruct (codecvt_cases _ _ _ _ _ _ _ Hu H) as [[ys Hy]|(-> & Hr & Hn)].
    + eapply xparse_fits; eauto.
    + split; [auto|]. split; [contradiction|]. split; [auto|]. intros u E. contradiction (Hn u).
  - cbn [untyped vs_parse] in H. destruct (codecvt_cases _ _ _ _ _ _ _ Hu H) as [[ys Hy]|(-> & Hr & Hn)].
    + unfold untyped_xparse in Hy. destruct a as [x|]; cbn [any_empty negb] in Hy.
      * injection Hy as <- <-. split; [auto|]. repeat split; discriminate.
      * destruct ys as [|y [|]]; injection Hy as <- <-; split; try exact I; try reflexivity; repeat split; try discriminate; auto.
    + split; [auto|]. split; [contradiction|]. split; [auto|]. intros u E. contradiction (Hn u).
Qed.

(** Every entry has the type of its name, and a value if it has a semantics. *)
Definition typed_map (ty : str -> vty) (m : smap variable_value) : Prop :=
  forall name v, sm_find name m = Some v ->
    fits_type (ty name) (vv_value v)
    /\ (forall s, vv_sem v = Some s -> library_semantic (ty name) s /\ vv_value v <> None).

Lemma typed_map_set ty m name v :
  typed_map ty m -> fits_type (ty name) (vv_value v) ->
  (forall s, vv_sem v = Some s -> library_semantic (ty name) s /\ vv_value v <> None) ->
  typed_map ty (sm_set name v m).
Proof.
  intros Hm H1 H2 name' v' H. rewrite sm_find_set in H. destruct (str_eqb_spec name' name) as [->|].
  - injection H as <-. auto.
  - eauto.
Qed.

Lemma store_options_typed ty ds prefix final utf8 :
  (forall name d, find ds name false false false = Ok d -> library_semantic (ty name) (od_sem d)) ->
  forall opts m nf m' nf' r,
  typed_map ty m -> store_options ds prefix final utf8 opts m nf = (m', nf', r) ->
  typed_map ty m' /\ (forall u, r = Undef u -> u = UB_ctype).
Proof.
  intros Hds. induction opts as [|o opts IH]; intros m nf m' nf' r Hm H; cbn [store_options] in H.
  - injection H as <- _ <-. split; [auto|discriminate].
  - destruct (is_empty (po_key o)); [eauto|]. destruct (po_unreg o); [eauto|].
    destruct (ss_mem (po_key o) final); [eauto|].
    destruct (find ds (po_key o) false false false) as [d|e|u|] eqn:Ed.
    + specialize (Hds _ _ Ed).
      set (v1 := if vv_defaulted _ then _ else _) in H.
      assert (Hv1 : fits_type (ty (po_key o)) (vv_value v1)
        /\ (forall s, vv_sem v1 = Some s -> library_semantic (ty (po_key o)) s /\ vv_value v1 <> None)).
      { subst v1. destruct (sm_find (po_key o) m) as [v|] eqn:Ef.
        - destruct (vv_defaulted v); [split; [exact I|discriminate]|]. now apply Hm.
        - cbn. split; [exact I|discriminate]. }
      destruct Hv1 as [Hf1 Hs1].
      destruct (vs_parse (od_sem d) (vv_value v1) (po_value o) utf8) as [a r0] eqn:Ep.
      destruct (library_parse _ _ _ _ _ _ _ Hds Hf1 Ep) as (Hb & Hok & Hkeep & Hu).
      destruct r0 as [[]|e|u|].
      * eapply IH; [|exact H]. apply typed_map_set; auto. cbn. intros s [= <-]. auto.
      * injection H as <- _ <-. split; [|discriminate]. apply typed_map_set; auto. cbn. intros s Hs.
        destruct (Hs1 s Hs). auto.
      * injection H as <- _ <-. auto.
      * injection H as <- _ <-. split; [auto|discriminate].
    + injection H as <- _ <-. split; [auto|discriminate].
    + exfalso. unfold find in Ed. apply bind_Undef in Ed. destruct Ed as [Ed|([x|] & _ & Ed)]; try discriminate.
      now apply no_ub_sensitive in Ed.
    + injection H as <- _ <-. split; [auto|discriminate].
Qed.

Lemma store_defaults_typed ty prefix ds :
  (forall name d, In d ds -> is_key d [] name -> library_semantic (ty name) (od_sem d)) ->
  forall m req m' req', typed_map ty m -> store_defaults ds prefix m req = (m', req') -> typed_map ty m'.
Proof.
  induction ds as [|d ds IH]; intros Hds m req m' req' Hm H; cbn [store_defaults] in H.
  - now injection H as <- _.
  - assert (Hds' : forall name d', In d' ds -> is_key d' [] name -> library_semantic (ty name) (od_sem d')).
    { intros name d' Hi. apply Hds. now right. }
    destruct (is_empty (od_key d [])); [eapply IH; eauto|]. eapply IH; [exact Hds'| |exact H].
    destruct (sm_mem (od_key d []) m); auto. destruct (vs_default (od_sem d)) as [def|] eqn:Edf; auto.
    assert (Hl : library_semantic (ty (od_key d [])) (od_sem d)).
    { apply Hds; [now left|]. now apply is_key_od. }
    assert (Hdef : exists x, def = Some x /\ value_ty x = ty (od_key d [])).
    { destruct Hl as [(lc & ul & tv & Es & <- & Hw & _)|(_ & ul & z & Es & _)]; rewrite Es in Edf; cbn in Edf; [|discriminate].
      destruct Hw as [Hw _]. destruct (tv_default tv) as [[x txt]|]; cbn in Edf; [|discriminate].
      injection Edf as <-. eauto. }
    destruct Hdef as (x & -> & Hx). apply typed_map_set; auto. cbn. intros s [= <-]. split; [auto|discriminate].
Qed.

Lemma store_typed ty p vm utf8 vm' r :
  (forall ds name d, pr_desc p = Some ds ->
     find ds name false false false = Ok d \/ (In d ds /\ is_key d [] name) ->
     library_semantic (ty name) (od_sem d)) ->
  typed_map ty (vm_map vm) -> store p vm utf8 = (vm', r) ->
  typed_map ty (vm_map vm') /\ (forall u, r = Undef u -> pr_desc p = None \/ u = UB_ctype).
Proof.
  intros Hc Hm H. unfold store in H. destruct (pr_desc p) as [ds|]; [|injection H as <- _; auto].
  destruct (store_options ds (pr_prefix p) (vm_final vm) utf8 (pr_options p) (vm_map vm) []) as [[m nf] r0] eqn:Eo.
  apply (store_options_typed ty) in Eo; [|eauto|exact Hm]. destruct Eo as [Hm' Hu].
  destruct r0 as [[]|e|u|]; try (injection H as <- <-; split; [exact Hm'|]; intros; try discriminate; right; apply Hu; congruence).
  destruct (store_defaults ds (pr_prefix p) m (vm_required vm)) as [m' req] eqn:Edf.
  injection H as <- <-. cbn [vm_map]. split; [|discriminate].
  eapply store_defaults_typed; [|exact Hm'|exact Edf]. eauto.
Qed.

Lemma calls_typed ty vm h vm' :
  calls vm h vm' -> consistent ty h -> typed_map ty (vm_map vm) -> typed_map ty (vm_map vm').
Proof.
  induction 1 as [|vm p u vm1 r h vm2 Hs _ _ IH]; auto. intros Hc Hm. apply IH.
  - intros q v ds name d Hi. apply (Hc q v). now right.
  - eapply store_typed; [|exact Hm|exact Hs]. intros ds name d. apply (Hc p u). now left.
Qed.

Lemma library_notify t s x u : library_semantic t s -> value_ty x = t -> snd (vs_notify s (Some x)) <> Undef u.
Proof.
  intros [(lc & ul & tv & -> & <- & _)|(_ & ul & z & -> & _)] Hx; cbn [typed untyped vs_notify]; [|discriminate].
  unfold tv_notify. rewrite <- Hx, any_cast_ty.
  destruct (tv_store_to tv); destruct (tv_notifier tv) as [[f body]|]; cbn [snd]; try discriminate;
    destruct (body x); discriminate.
Qed.

(** Whatever the types, an entry that has a semantics has a value of its type. *)
Definition sound_map (m : smap variable_value) : Prop :=
  forall name v s, sm_find name m = Some v -> vv_sem v = Some s ->
    exists t x, library_semantic t s /\ vv_value v = Some x /\ value_ty x = t.

Lemma sound_map_set m name v :
  sound_map m ->
  (forall s, vv_sem v = Some s -> exists t x, library_semantic t s /\ vv_value v = Some x /\ value_ty x = t) ->
  sound_map (sm_set name v m).
Proof.
  intros Hm H1 name' v' s H Hs. rewrite sm_find_set in H. destruct (str_eqb_spec name' name) as [->|].
  - injection H as <-. auto.
  - eauto.
Qed.

(** Success gives a value of the right type, whatever was there. *)
Lemma validate_Ok_type lc t : forall v xs a, validate lc t v xs = (a, Ok tt) -> exists x, a = Some x /\ value_ty x = t.
Proof.
  intros v xs a H.
  assert (Hf : fits_type t v -> exists x, a = Some x /\ value_ty x = t).
  { intros Hv. destruct (validate_fits _ _ _ _ _ _ Hv H) as [H1 H2]. destruct a as [x|]; [eauto|]. now contradiction H2. }
  destruct v as [x|]; [|apply Hf; exact I].
  destruct t; try (rewrite scalar_second in H by exact I; discriminate).
  cbn [Values.validate] in H. unfold validate_vec in H. cbv zeta in H. cbn [any_empty] in H.
  destruct (any_cast (TVec t) (Some x)) as [[]|] eqn:E; try discriminate.
  destruct (push_tokens _ _ _ _). injection H as <- _. eauto.
Qed.

Lemma validate_Throw_type lc t v xs a e x :
  v = Some x -> validate lc t v xs = (a, Throw e) -> exists y, a = Some y /\ value_ty y = value_ty x.
Proof.
  intros -> H. destruct t; try (rewrite scalar_second in H by exact I; injection H as <- _; eauto).
  cbn [Values.validate] in H. unfold validate_vec in H. cbv zeta in H. cbn [any_empty] in H.
  destruct (any_cast (TVec t) (Some x)) as [[]|] eqn:E; try discriminate.
  destruct (push_tokens _ _ _ _). injection H as <- _. eexists. split; [reflexivity|].
  cbn in E. destruct (vty_eqb (value_ty x) (TVec t)) eqn:Ety; [|discriminate]. apply vty_eqb_eq in Ety. now rewrite Ety.
Qed.

Lemma library_Ok t s a xs utf8 b :
  library_semantic t s -> vs_parse s a xs utf8 = (b, Ok tt) -> exists x, b = Some x /\ value_ty x = t.
Proof.
  intros [(lc & ul & tv & -> & <- & Hw & Hu)|(-> & ul & z & -> & Hu)] H.
  - cbn [typed vs_parse] in H. apply codecvt_Ok in H. destruct H as (ys & _ & H).
    unfold tv_xparse in H. destruct Hw as [_ Hw]. destruct ys; [|eapply validate_Ok_type; eauto].
    destruct (tv_implicit tv) as [[iv txt]|]; [injection H as <-; eauto|eapply validate_Ok_type; eauto].
  - apply untyped_Ok in H. destruct H as (_ & str & ->). eauto.
Qed.

Lemma library_Throw t s x xs utf8 b e :
  library_semantic t s -> vs_parse s (Some x) xs utf8 = (b, Throw e) -> exists y, b = Some y /\ value_ty y = value_ty x.
Proof.
  intros [(lc & ul & tv & -> & <- & Hw & Hu)|(-> & ul & z & -> & Hu)] H.
  - cbn [typed vs_parse] in H. destruct (codecvt_cases _ _ _ _ _ _ _ Hu H) as [[ys Hy]|(-> & _)]; [|eauto].
    unfold tv_xparse in Hy. destruct ys; [|eapply validate_Throw_type; eauto].
    destruct (tv_implicit tv) as [[iv txt]|]; [discriminate|eapply validate_Throw_type; eauto].
  - cbn [untyped vs_parse] in H. destruct (codecvt_cases _ _ _ _ _ _ _ Hu H) as [[ys Hy]|(-> & _)]; [|eauto].
    unfold untyped_xparse in Hy. cbn [any_empty negb] in Hy. injection Hy as <- _. eauto.
Qed.

Lemma store_options_sound ds prefix final utf8 :
  (forall name d, find ds name false false false = Ok d -> exists t, library_semantic t (od_sem d)) ->
  forall opts m nf m' nf' r,
  sound_map m -> store_options ds prefix final utf8 opts m nf = (m', nf', r) -> sound_map m'.
Proof.
  intros Hds. induction opts as [|o opts IH]; intros m nf m' nf' r Hm H; cbn [store_options] in H.
  - now injection H as <- _ _.
  - destruct (is_empty (po_key o)); [eauto|]. destruct (po_unreg o); [eauto|].
    destruct (ss_mem (po_key o) final); [eauto|].
    destruct (find ds (po_key o) false false false) as [d|e|u|] eqn:Ed; try (now injection H as <- _ _).
    destruct (Hds _ _ Ed) as [t Ht].
    set (v1 := if vv_defaulted _ then _ else _) in H.
    assert (Hv1 : forall s, vv_sem v1 = Some s -> exists t x, library_semantic t s /\ vv_value v1 = Some x /\ value_ty x = t).
    { subst v1. destruct (sm_find (po_key o) m) as [v|] eqn:Ef.
      - destruct (vv_defaulted v); [discriminate|]. intros s Hs. eapply Hm; eauto.
      - cbn. discriminate. }
    destruct (vs_parse (od_sem d) (vv_value v1) (po_value o) utf8) as [a r0] eqn:Ep.
    destruct r0 as [[]|e|u|]; try (now injection H as <- _ _).
    + eapply IH; [|exact H]. apply sound_map_set; auto. cbn. intros s [= <-].
      destruct (library_Ok _ _ _ _ _ _ Ht Ep) as (x & Ex & Hx). eauto.
    + injection H as <- _ _. apply sound_map_set; auto. cbn. intros s Hs.
      destruct (Hv1 s Hs) as (t1 & x & Hl & Hx & Hty). rewrite Hx in Ep.
      destruct (library_Throw _ _ _ _ _ _ _ Ht Ep) as (y & Hy1 & Hy2). exists t1, y. split; [auto|]. split; [auto|congruence].
Qed.

Lemma library_default t s def : library_semantic t s -> vs_default s = Some def -> exists x, def = Some x /\ value_ty x = t.
Proof.
  intros [(lc & ul & tv & -> & <- & Hw & _)|(_ & ul & z & -> & _)] E; cbn in E; [|discriminate].
  destruct Hw as [Hw _]. destruct (tv_default tv) as [[x txt]|]; cbn in E; [|discriminate].
  injection E as <-. eauto.
Qed.

Lemma store_defaults_sound prefix ds :
  (forall d, In d ds -> exists t, library_semantic t (od_sem d)) ->
  forall m req m' req', sound_map m -> store_defaults ds prefix m req = (m', req') -> sound_map m'.
Proof.
  induction ds as [|d ds IH]; intros Hds m req m' req' Hm H; cbn [store_defaults] in H.
  - now injection H as <- _.
  - assert (Hds' : forall d', In d' ds -> exists t, library_semantic t (od_sem d')).
    { intros d' Hi. apply Hds. now right. }
    destruct (is_empty (od_key d [])); [eapply IH; eauto|]. eapply IH; [exact Hds'| |exact H].
    destruct (sm_mem (od_key d []) m); auto. destruct (vs_default (od_sem d)) as [def|] eqn:Edf; auto.
    destruct (Hds d (or_introl eq_refl)) as [t Hl].
    destruct (library_default _ _ _ Hl Edf) as (x & -> & Hx).
    apply sound_map_set; auto. cbn. intros s [= <-]. eauto.
Qed.

Lemma calls_sound vm h vm' :
  calls vm h vm' -> library_only h -> sound_map (vm_map vm) -> sound_map (vm_map vm').
Proof.
  induction 1 as [|vm p u vm1 r h vm2 Hs _ _ IH]; auto. intros Hc Hm. apply IH.
  - intros q v ds d Hi. apply (Hc q v). now right.
  - unfold store in Hs. destruct (pr_desc p) as [ds|] eqn:Eds; [|now injection Hs as <- _].
    destruct (store_options ds (pr_prefix p) (vm_final vm) u (pr_options p) (vm_map vm) []) as [[m nf] r0] eqn:Eo.
    apply store_options_sound in Eo; [| |exact Hm].
    2:{ intros name d Hd. apply (Hc p u ds); [now left|auto|]. unfold find in Hd. apply bind_Ok in Hd. destruct Hd as ([x|] & Hd & E); [|discriminate].
        injection E as <-. now apply find_found_In in Hd. }
    destruct r0 as [[]|e|x|]; try (injection Hs as <- _; exact Eo).
    destruct (store_defaults ds (pr_prefix p) m (vm_required vm)) as [m' req] eqn:Edf.
    injection Hs as <- _. cbn [vm_map]. eapply store_defaults_sound; [|exact Eo|exact Edf].
    intros d Hd. apply (Hc p u ds); [now left|auto|auto].
Qed.

Lemma notify_defined h vm u :
  calls vm_new h vm -> library_only h -> snd (notify vm) <> Undef u.
Proof.
  intros H Hc. assert (Hm : sound_map (vm_map vm)).
  { eapply calls_sound; eauto. intros name v s E. discriminate. }
  destruct (calls_sorted _ _ _ H) as [Hs _]; [constructor|constructor|].
  unfold notify. destruct (check_required_spec (vm_map vm) (vm_required vm)) as [[-> _]|(r1 & k & disp & r2 & _ & -> & _)];
    [|discriminate].
  destruct (run_notify (vm_map vm)) as [ev r] eqn:Er. cbn [snd]. intros ->.
  apply run_notify_spec in Er. destruct Er as [[Er _]|(m1 & k & v & m2 & s & evs & last & Em & _ & Ev & En & _)]; [discriminate|].
  assert (Hk : sm_find k (vm_map vm) = Some v).
  { apply sm_find_In_pair; auto. rewrite Em. apply in_or_app. right. now left. }
  destruct (Hm k v s Hk Ev) as (t & x & Hl & Hx & Ht). rewrite Hx in En.
  apply (library_notify _ _ x u Hl Ht). now rewrite En.
Qed.
