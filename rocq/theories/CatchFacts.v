(** Proofs for C117. *)

From Coq Require Import List Ascii String NArith ZArith Bool Arith Lia.
From Verif Require Import Base BaseFacts Errors Spec Values OptDesc SpecLookup LookupFacts Positional Cmdline SpecCmdline Parsers ConfigFile
  VarMap SpecStore StoreFacts SemFacts Convert Wide SpecCatch Streams SpecStreams StreamFacts EndFacts SpecProgram.
Import ListNotations.

Lemma only_Ok A (P : exn_class -> Prop) (a : A) : only P (Ok a). Proof. discriminate. Qed.
Lemma only_Undef A (P : exn_class -> Prop) u : only P (@Undef A u). Proof. discriminate. Qed.
Lemma only_NoFuel A (P : exn_class -> Prop) : only P (@NoFuel A). Proof. discriminate. Qed.
Lemma only_Throw A (P : exn_class -> Prop) e : P (ex_class e) -> only P (@Throw A e). Proof. intros H e' [= <-]. exact H. Qed.
Lemma only_bind A B (P : exn_class -> Prop) (x : outcome A) (f : A -> outcome B) :
  only P x -> (forall a, x = Ok a -> only P (f a)) -> only P (bind x f).
Proof. destruct x; cbn; intros H K; auto; intros e' E; [apply H; congruence|discriminate|discriminate]. Qed.
Lemma only_weaken A (P Q : exn_class -> Prop) (x : outcome A) : (forall c, P c -> Q c) -> only P x -> only Q x.
Proof. intros H K e E. auto. Qed.
Lemma only_mapM A B (P : exn_class -> Prop) (f : A -> outcome B) l : (forall x, only P (f x)) -> only P (mapM f l).
Proof.
  intros H. induction l as [|x l IH]; cbn [mapM]; [apply only_Ok|]. apply only_bind; [apply H|]. intros y _.
  apply only_bind; [exact IH|]. intros; apply only_Ok.
Qed.

Lemma class_set k v e : ex_class (set_substitute k v e) = ex_class e.
Proof. reflexivity. Qed.

Lemma class_context name tok z e : ex_class (add_context name tok z e) = ex_class e.
Proof. unfold add_context. destruct (has_option_name (ex_class e)); [|reflexivity]. cbn. destruct (no_option_name (ex_class e)); reflexivity. Qed.

#[export] Hint Resolve only_Ok only_Undef only_NoFuel : only.

(** ** Lookup *)

Definition lookup_errors (x : exn_class) : Prop := x = unknown_option \/ exists alts, x = ambiguous_option alts.

Lemma only_tolower P c : only P (tolower_char c).
Proof. unfold tolower_char. intros e E. repeat match type of E with (if ?b then _ else _) = _ => destruct b end; discriminate. Qed.

Lemma only_fold P b s : only P (fold_case b s).
Proof. unfold fold_case, tolower_. destruct b; auto with only. apply only_mapM. intros; apply only_tolower. Qed.

Lemma only_last P s : only P (last_char s).
Proof. unfold last_char. intros e E. repeat match type of E with match ?b with _ => _ end = _ => destruct b end; discriminate. Qed.

Lemma only_match_longs P o approx lic names : forall r, only P (match_longs o approx lic names r).
Proof.
  induction names as [|n names IH]; intros r; cbn [match_longs]; auto with only.
  apply only_bind; [apply only_fold|]. intros name _. destruct (is_empty name); auto.
  apply only_bind; [apply only_last|]. intros l _. cbv zeta. destruct (str_eqb name o); auto with only.
Qed.

Lemma only_od_match P d o a l s : only P (od_match d o a l s).
Proof.
  unfold od_match. apply only_bind; [apply only_fold|]. intros x _. apply only_bind; [apply only_match_longs|]. intros r _.
  destruct r; auto with only; (apply only_bind; [apply only_fold|]; intros y _; destruct (str_eqb y x); auto with only).
Qed.

Lemma only_find_loop P name a l s ds : forall st, only P (find_loop name a l s ds st).
Proof.
  induction ds as [|d ds IH]; intros st; cbn [find_loop]; auto with only.
  apply only_bind; [apply only_od_match|]. intros r _. destruct r; auto.
Qed.

Lemma only_find ds name a l s : only lookup_errors (find ds name a l s).
Proof.
  unfold find, find_nothrow. apply only_bind.
  - apply only_bind; [apply only_find_loop|]. intros st _. destruct (1 <? List.length (fs_full st))%nat.
    + apply only_Throw. right. eexists. reflexivity.
    + destruct (is_empty (fs_full st) && _); auto with only. apply only_Throw. right. eexists. reflexivity.
  - intros [d|] _; auto with only. apply only_Throw. now left.
Qed.

(** ** Files *)

Lemma only_add_options al : forall ps, only (fun x => exists msg, x = po_error msg) (cf_add_options ps al).
Proof.
  induction al as [|n al IH]; intros ps; cbn [cf_add_options]; auto with only.
  apply only_bind; [|intros; apply IH]. unfold cf_add_option. destruct (is_empty n); auto with only.
  apply only_bind; [apply only_last|]. intros l _. destruct (char_eqb l c_star); auto with only. cbv zeta.
  match goal with |- only _ (if ?b then _ else _) => destruct b end; auto with only. apply only_Throw. eexists. reflexivity.
Qed.

Lemma only_allowed ds : forall al, only (fun x => exists msg, x = po_error msg) (cf_allowed ds al).
Proof.
  induction ds as [|d ds IH]; intros al; cbn [cf_allowed]; auto with only.
  destruct (is_empty _); auto. apply only_Throw. eexists. reflexivity.
Qed.

Lemma only_section P s : only P (section_prefix s).
Proof.
  unfold section_prefix. cbv zeta.
  repeat match goal with
  | |- only _ (if ?b then _ else _) => destruct b
  | |- only _ (match ?b with _ => _ end) => destruct b
  | |- only _ (bind _ _) => apply only_bind; [try apply only_last|intros]
  end; auto with only.
Qed.

Definition line_errors (allow : bool) (x : exn_class) : Prop :=
  (x = unknown_option /\ allow = false) \/ x = invalid_config_file_syntax unrecognized_line.

Lemma only_get al ps allow lines : forall pre, only (line_errors allow) (cf_get al ps allow pre lines).
Proof.
  induction lines as [|l lines IH]; intros pre; cbn [cf_get]; auto with only. cbv zeta.
  destruct (is_empty _); auto. destruct (is_section _).
  - apply only_bind; [apply only_section|]. intros; apply IH.
  - destruct (find_char _ _); [|apply only_Throw; right; reflexivity].
    match goal with |- only _ (if negb ?b && _ then _ else _) => destruct b end; cbn [negb andb]; [apply only_Ok|].
    destruct allow; cbn [negb]; [apply only_Ok|]. apply only_Throw. left. split; reflexivity.
Qed.

Lemma only_copy al ps allow fuel : forall st, only (line_errors allow) (cf_copy fuel al ps allow st).
Proof.
  induction fuel as [|fuel IH]; intros st; cbn [cf_copy]; auto with only.
  apply only_bind; [apply only_get|]. intros [[o|] st'] _; auto with only.
  apply only_bind; [apply IH|]. intros; auto with only.
Qed.

Lemma only_config content ds allow : only (file_errors allow) (parse_config_file content ds allow).
Proof.
  unfold parse_config_file. cbv zeta. apply only_bind.
  { eapply only_weaken; [|apply only_allowed]. intros x H. right. right. exact H. }
  intros al _. apply only_bind.
  { eapply only_weaken; [|apply only_add_options]. intros x H. right. right. exact H. }
  intros ps _. apply only_bind; [|intros; auto with only].
  eapply only_weaken; [|apply only_copy]. intros x [H|H]; [now left|right; now left].
Qed.

(** ** Values *)

Lemma only_assign P v (r : outcome value) : only P r -> only P (snd (assign_or v r)).
Proof. intros H e E. apply H. destruct r; cbn in E; congruence. Qed.

Lemma only_first v : only store_errors (check_first_occurrence v).
Proof. unfold check_first_occurrence. destruct (any_empty v); auto with only. apply only_Throw. cbv. tauto. Qed.

Lemma only_single xs b : only store_errors (get_single_string xs b).
Proof. destruct xs as [|x [|y xs]]; cbn; [destruct b| |]; auto with only; apply only_Throw; cbv; tauto. Qed.

Lemma only_wsingle xs b : only store_errors (wget_single_string xs b).
Proof. destruct xs as [|x [|y xs]]; cbn; [destruct b| |]; auto with only; apply only_Throw; cbv; tauto. Qed.

Section Values.
Variable lc : nat -> str -> option Z.

Lemma only_push t elem : (forall x, only store_errors (snd (elem [x]))) -> (forall x a, elem [x] = (a, Ok tt) -> any_cast t a <> None) ->
  forall xs tv, only store_errors (snd (push_tokens t elem tv xs)).
Proof.
  intros H K. induction xs as [|x xs IH]; intros tv; cbn [push_tokens]; [apply only_Ok|].
  pose proof (H x) as Hx. pose proof (K x) as Kx. destruct (elem [x]) as [a r]. cbn [snd] in Hx.
  destruct r as [[]|e| |]; cbn [snd]; auto with only; try (intros e' E; apply Hx; congruence).
  destruct (any_cast t a) eqn:E; auto. destruct (Kx a eq_refl E).
Qed.

Lemma cast_after t xs a : validate lc t None xs = (a, Ok tt) -> any_cast t a <> None.
Proof.
  intros E. destruct (validate_fits lc t None xs a (Ok tt) I E) as (F & N). specialize (N eq_refl).
  destruct a as [x|]; [|congruence]. cbn in F. subst t. rewrite any_cast_ty. discriminate.
Qed.

Lemma only_validate t : forall v xs, only store_errors (snd (validate lc t v xs)).
Proof.
  induction t as [| |n|t IH|t IH]; intros v xs; cbn [validate].
  - apply only_assign. apply only_bind; [apply only_first|]. intros _ _. apply only_bind; [apply only_single|]. intros s _.
    unfold bool_of_string. apply only_bind; [apply only_mapM; intros; apply only_tolower|]. intros l _.
    repeat match goal with |- only _ (if ?b then _ else _) => destruct b end; auto with only. apply only_Throw. cbv. tauto.
  - apply only_assign. apply only_bind; [apply only_first|]. intros _ _. apply only_bind; [apply only_single|]. intros; auto with only.
  - apply only_assign. apply only_bind; [apply only_first|]. intros _ _. apply only_bind; [apply only_single|]. intros s _.
    destruct (lc n s); auto with only. apply only_Throw. cbv. tauto.
  - unfold validate_vec. cbv zeta. destruct (any_cast _ _) as [[]|]; try apply only_Undef.
    pose proof (only_push t (fun ys => validate lc t None ys) (fun x => IH None [x]) (fun x a => cast_after t [x] a) xs vs) as H.
    destruct (push_tokens t (fun ys => validate lc t None ys) vs xs). exact H.
  - apply only_assign. apply only_bind; [apply only_first|]. intros _ _. apply only_bind; [apply only_single|]. intros _ _.
    pose proof (IH None xs) as H. pose proof (cast_after t xs) as K. destruct (validate lc t None xs) as [a r]. cbn [snd] in H.
    destruct r as [[]|e| |]; auto with only.
    + destruct (any_cast t a) eqn:E; auto with only. destruct (K a eq_refl E).
    + intros e' E. apply H. congruence.
Qed.

Lemma only_xparse tv v xs : only store_errors (snd (tv_xparse lc tv v xs)).
Proof. unfold tv_xparse. destruct xs; [destruct (tv_implicit tv) as [[? ?]|]|]; try apply only_Ok; apply only_validate. Qed.

End Values.

Lemma only_untyped v xs : only store_errors (snd (untyped_xparse v xs)).
Proof.
  unfold untyped_xparse. destruct (negb _); [apply only_Throw; cbv; tauto|].
  destruct xs as [|x [|y xs]]; try apply only_Ok. apply only_Throw. cbv. tauto.
Qed.

Lemma only_codecvt (P : exn_class -> Prop) local xparse v xs u : (u = true -> forall x, only P (local x)) -> (forall v xs, only P (snd (xparse v xs))) ->
  only P (snd (codecvt_parse local xparse v xs u)).
Proof.
  intros L H. unfold codecvt_parse. destruct u; auto.
  pose proof (only_mapM _ _ P local xs (L eq_refl)) as Hm. destruct (mapM local xs) as [|e| |]; cbn [snd]; auto with only.
  intros e' E. apply Hm. congruence.
Qed.

(** Wide values *)
Section Wide.
Variable to_local : wstr -> outcome str.
Variable wlc : nat -> wstr -> option Z.
Variable wide_string : nat.
Variable wide_code : wstr -> Z.
Notation wvalidate := (wvalidate to_local wlc wide_string wide_code).

Definition wide_errors (t : vty) (x : exn_class) : Prop := store_errors x \/ (x = bad_any_cast /\ has_string t).

Lemma only_convert_value P s : only P (convert_value to_local s).
Proof. unfold convert_value. destruct (to_local s); auto with only. Qed.

Lemma only_wtolower P w : only P (wtolower w).
Proof. unfold wtolower. destruct (N.ltb _ _); auto with only. Qed.

(** What the validators leave in the any: a value of the type, unless a narrow string is involved. *)
Lemma wcast_after t : ~ has_string t -> forall xs a, wvalidate t None xs = (a, Ok tt) -> any_cast t a <> None.
Proof.
  assert (A : forall v r a, assign_or v r = (a, Ok tt) -> exists x, r = Ok x /\ a = Some x) by (intros v r a E; now apply assign_or_Ok in E).
  intros N xs a E. destruct t as [| |n|t|t]; cbn [Wide.wvalidate] in E.
  - apply A in E. destruct E as (x & E & ->). apply bind_Ok in E. destruct E as (u & _ & E). apply bind_Ok in E. destruct E as (s & _ & E).
    unfold wbool_of_string in E. apply bind_Ok in E. destruct E as (l & _ & E). cbv zeta in E.
    repeat match type of E with (if ?b then _ else _) = _ => destruct b end; try (injection E as <-; discriminate).
    apply bind_Ok in E. destruct E as (z & _ & E). discriminate.
  - destruct N. exact I.
  - apply A in E. destruct E as (x & E & ->). apply bind_Ok in E. destruct E as (u & _ & E). apply bind_Ok in E. destruct E as (s & _ & E).
    destruct (wlc n s); [|apply bind_Ok in E; destruct E as (z & _ & E); discriminate]. injection E as <-.
    pose proof (any_cast_ty (VLex n z)) as C. cbn [value_ty] in C. rewrite C. discriminate.
  - unfold wvalidate_vec in E. cbv zeta in E. destruct (any_cast _ _) as [[]|]; try discriminate.
    destruct (wpush_tokens _ _ _ _) as [vs' r]. injection E as <- _.
    pose proof (any_cast_ty (VVec t vs')) as C. cbn [value_ty] in C. rewrite C. discriminate.
  - apply A in E. destruct E as (x & E & ->). apply bind_Ok in E. destruct E as (u & _ & E). apply bind_Ok in E. destruct E as (s & _ & E).
    destruct (wvalidate t None xs) as [a' [[]| | |]]; try discriminate. destruct (any_cast t a') as [e|]; [|discriminate]. injection E as <-.
    pose proof (any_cast_ty (VOpt t (Some e))) as C. cbn [value_ty] in C. rewrite C. discriminate.
Qed.

Lemma has_string_dec t : has_string t \/ ~ has_string t.
Proof. induction t; cbn; auto. Qed.

Lemma only_wpush t elem : (forall x, only (wide_errors t) (snd (elem [x]))) -> (~ has_string t -> forall x a, elem [x] = (a, Ok tt) -> any_cast t a <> None) ->
  forall xs tv, only (wide_errors t) (snd (wpush_tokens t elem tv xs)).
Proof.
  intros H K. induction xs as [|x xs IH]; intros tv; cbn [wpush_tokens]; [apply only_Ok|].
  pose proof (H x) as Hx. pose proof (fun N => K N x) as Kx. destruct (elem [x]) as [a r]. cbn [snd] in Hx.
  destruct r as [[]|e| |]; cbn [snd]; auto with only; try (intros e' E; apply Hx; congruence).
  destruct (any_cast t a) eqn:E; auto. destruct (has_string_dec t) as [S|S]; [apply only_Throw; right; now split|].
  destruct (Kx S a eq_refl E).
Qed.

Lemma only_store_wide A t (x : outcome A) : only store_errors x -> only (wide_errors t) x.
Proof. apply only_weaken. intros c H. now left. Qed.

Lemma only_wvalidate t : forall v xs, only (wide_errors t) (snd (wvalidate t v xs)).
Proof.
  induction t as [| |n|t IH|t IH]; intros v xs; cbn [Wide.wvalidate].
  - apply only_store_wide, only_assign. apply only_bind; [apply only_first|]. intros _ _. apply only_bind; [apply only_wsingle|]. intros s _.
    unfold wbool_of_string. apply only_bind; [apply only_mapM; intros; apply only_wtolower|]. intros l _. cbv zeta.
    repeat match goal with |- only _ (if ?b then _ else _) => destruct b end; auto with only.
    apply only_bind; [apply only_convert_value|]. intros z _. apply only_Throw. cbv. tauto.
  - apply only_store_wide, only_assign. apply only_bind; [apply only_first|]. intros _ _. apply only_bind; [apply only_wsingle|]. intros; auto with only.
  - apply only_store_wide, only_assign. apply only_bind; [apply only_first|]. intros _ _. apply only_bind; [apply only_wsingle|]. intros s _.
    destruct (wlc n s); auto with only. apply only_bind; [apply only_convert_value|]. intros z _. apply only_Throw. cbv. tauto.
  - unfold wvalidate_vec. cbv zeta. destruct (any_cast _ _) as [[]|]; try apply only_Undef.
    pose proof (only_wpush t (fun ys => wvalidate t None ys) (fun x => IH None [x]) (fun N x a => wcast_after t N [x] a) xs vs) as H.
    destruct (wpush_tokens t (fun ys => wvalidate t None ys) vs xs). exact H.
  - apply only_assign. apply only_bind; [apply only_store_wide, only_first|]. intros _ _.
    apply only_bind; [apply only_store_wide, only_wsingle|]. intros _ _.
    pose proof (IH None xs) as H. pose proof (fun N => wcast_after t N xs) as K. destruct (wvalidate t None xs) as [a r]. cbn [snd] in H.
    destruct r as [[]|e| |]; auto with only.
    + destruct (any_cast t a) eqn:E; auto with only. destruct (has_string_dec t) as [S|S]; [apply only_Throw; right; now split|].
      destruct (K S a eq_refl E).
    + intros e' E. apply H. congruence.
Qed.

End Wide.

Lemma only_convert {St From To} (f : cvt St From To) n fuel : forall st s, only conversion_error (convert_loop fuel f n st s).
Proof.
  induction fuel as [|fuel IH]; intros st s; destruct s as [|c s]; cbn [convert_loop]; auto with only.
  destruct (f st (c :: s) n) as [[[r st'] k] out]. destruct r; try (apply only_Throw; eexists; reflexivity);
    (destruct (is_empty out); [apply only_Throw; eexists; reflexivity|]; apply only_bind; [apply IH|]; intros; auto with only).
Qed.

Definition value_errors (narrow : Prop) (x : exn_class) : Prop :=
  store_errors x \/ conversion_error x \/ (x = bad_any_cast /\ narrow).

Lemma only_library narrow s : library_value narrow s -> forall v xs u, only (value_errors narrow) (snd (vs_parse s v xs u)).
Proof.
  intros L v xs u. destruct L as [lc local tv H|local zero H|tl fl lc n code tv H N].
  - apply only_codecvt; [intros _ x; eapply only_weaken; [|apply H]; intros c X; right; now left|].
    intros v' xs'. eapply only_weaken; [|apply only_xparse]. intros c X; now left.
  - apply only_codecvt; [intros _ x; eapply only_weaken; [|apply H]; intros c X; right; now left|].
    intros v' xs'. eapply only_weaken; [|apply only_untyped]. intros c X; now left.
  - cbn [vs_parse wtyped]. unfold wcodecvt_parse.
    assert (Hm : only conversion_error (mapM (if u then from_utf8 else fl) xs)).
    { apply only_mapM. intros x. destruct u; [|apply H]. unfold from_utf8, from_8_bit. apply only_convert. }
    destruct (mapM (if u then from_utf8 else fl) xs) as [ys|e| |]; cbn [snd]; auto with only.
    + unfold wtv_xparse. assert (V : only (value_errors narrow) (snd (wvalidate tl lc n code (tv_type tv) v ys))).
      { eapply only_weaken; [|apply only_wvalidate]. intros c [X|(X & Y)]; [now left|right; right; auto]. }
      destruct ys; [destruct (tv_implicit tv) as [[? ?]|]|]; try apply only_Ok; exact V.
    + apply only_Throw. right. left. apply (Hm e eq_refl).
Qed.

Lemma find_mem ds name d : find ds name false false false = Ok d -> In d ds.
Proof. apply find_In. Qed.

(** ** Storing *)

Lemma only_store (P : exn_class -> Prop) p vm utf8 : (forall x, lookup_errors x -> P x) ->
  (forall ds d, pr_desc p = Some ds -> In d ds -> forall v xs, only P (snd (vs_parse (od_sem d) v xs utf8))) ->
  only P (snd (store p vm utf8)).
Proof.
  intros L Hs. unfold store. destruct (pr_desc p) as [ds|] eqn:Ed; [|apply only_Undef].
  assert (H : forall opts m nf, only P (snd (store_options ds (pr_prefix p) (vm_final vm) utf8 opts m nf))).
  { induction opts as [|o opts IH]; intros m nf; cbn [store_options]; cbv zeta; [apply only_Ok|].
    destruct (is_empty (po_key o)); auto. destruct (po_unreg o); auto. destruct (ss_mem (po_key o) (vm_final vm)); auto.
    destruct (find ds (po_key o) false false false) as [d|e| |] eqn:Ef; try apply only_Undef; try apply only_NoFuel.
    - pose proof (Hs ds d eq_refl (find_mem _ _ _ Ef)) as Hp.
      match goal with |- context [vs_parse (od_sem d) ?v _ _] => specialize (Hp v (po_value o)); destruct (vs_parse (od_sem d) v (po_value o) utf8) as [a r] end.
      destruct r as [|e| |]; auto; try apply only_Undef; try apply only_NoFuel. cbn [snd] in *.
      apply only_Throw. rewrite class_context. now apply Hp.
    - cbn [snd]. apply only_Throw. rewrite class_context. apply L. exact (only_find _ _ _ _ _ _ Ef). }
  specialize (H (pr_options p) (vm_map vm) []).
  destruct (store_options ds (pr_prefix p) (vm_final vm) utf8 (pr_options p) (vm_map vm) []) as [[m nf] r]. cbn [snd] in H.
  destruct r as [|e| |]; cbn [snd]; auto with only. destruct (store_defaults _ _ _ _). apply only_Ok.
Qed.

Lemma lookup_store x : lookup_errors x -> store_errors x.
Proof. unfold lookup_errors, store_errors. tauto. Qed.

Lemma only_semantic t s : library_semantic t s -> forall v xs, only store_errors (snd (vs_parse s v xs false)).
Proof.
  intros [(lc & local & tv & -> & _)|(_ & local & zero & -> & _)] v xs; apply only_codecvt; try discriminate; intros.
  - apply only_xparse.
  - apply only_untyped.
Qed.

(** ** Notifying *)

Lemma notify_thrown vm e : snd (notify vm) = Throw e ->
  ex_class e = required_option
  \/ exists name v s, In (name, v) (vm_map vm) /\ vv_sem v = Some s /\ snd (vs_notify s (vv_value v)) = Throw e.
Proof.
  unfold notify. assert (R : only (fun x => x = required_option) (check_required (vm_required vm) (vm_map vm))).
  { induction (vm_required vm) as [|[o disp] req IH]; cbn [check_required]; auto with only.
    destruct (sm_find o (vm_map vm)); [destruct (any_empty _); auto|]; apply only_Throw; reflexivity. }
  destruct (check_required _ _) as [|e'| |]; cbn [snd]; try discriminate.
  - intros E. right. clear R. revert E. induction (vm_map vm) as [|[k v] m IH]; cbn [run_notify]; [discriminate|].
    assert (IH' : snd (run_notify m) = Throw e ->
      exists name v' s, In (name, v') ((k, v) :: m) /\ vv_sem v' = Some s /\ snd (vs_notify s (vv_value v')) = Throw e).
    { intros E. destruct (IH E) as (n & v' & s & H & H'). exists n, v', s. split; [now right|exact H']. }
    destruct (vv_sem v) as [s|] eqn:Es; auto. destruct (vs_notify s (vv_value v)) as [ev r] eqn:En.
    destruct r; cbn [snd].
    + destruct (run_notify m). exact IH'.
    + intros [= ->]. exists k, v, s. split; [now left|]. rewrite En. now split.
    + discriminate.
    + discriminate.
  - intros [= <-]. left. now apply R.
Qed.

Lemma environment_thrown mapper e : forall env, parse_environment_loop env mapper = Throw e -> exists n, mapper n = Throw e.
Proof.
  induction env as [|s env IH]; cbn [parse_environment_loop]; [discriminate|]. intros E. apply bind_Throw in E.
  destruct E as [E|(p & _ & E)].
  - unfold env_split in E. destruct (find_char _ _); discriminate.
  - apply bind_Throw in E. destruct E as [E|(n & _ & E)]; [eauto|]. apply bind_Throw in E. destruct E as [E|(r & _ & E)]; [auto|discriminate].
Qed.

Lemma store_program x : store_errors x -> program_options_error x.
Proof. intros [->|[(a & ->)|[->|[->|[->|[->|[->| ->]]]]]]]; exact I. Qed.

Lemma notified t s a e : library_semantic t s -> snd (vs_notify s a) = Throw e -> notifier_throws s e.
Proof.
  intros [(lc & local & tv & -> & _)|(_ & local & zero & -> & _)]; cbn [vs_notify typed untyped snd]; [|discriminate].
  unfold tv_notify. cbv zeta. intros E.
  assert (N : exists f body x, tv_notifier tv = Some (f, body) /\ body x = Some e).
  { destruct (any_cast (tv_type tv) a) as [x|]; destruct (tv_store_to tv), (tv_notifier tv) as [[f body]|]; cbn [snd] in E; try discriminate;
      exists f, body, x; (split; [reflexivity|]); destruct (body x); congruence. }
  destruct N as (f & body & x & H & H'). exists lc, local, tv, f, body, x. auto.
Qed.
