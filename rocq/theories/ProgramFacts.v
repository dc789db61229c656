(** Whole programs: lemmas. *)

From Coq Require Import List Ascii String NArith ZArith Bool Lia.
From Verif Require Import Base Errors Spec BaseFacts Values OptDesc SpecLookup LookupFacts Positional Cmdline SpecCmdline CmdlineFacts
  Parsers ConfigFile SpecConfig ConfigFacts VarMap SpecStore StoreFacts SemFacts SpecErrors SpecProgram.
Import ListNotations.

(** ** Values *)

(** Neither undefined for want of ASCII, nor without end. *)
Definition calm {A} (r : outcome A) : Prop := r <> Undef UB_ctype /\ r <> NoFuel.

Lemma calm_ok {A} (a : A) : calm (Ok a).
Proof. split; discriminate. Qed.
Lemma calm_throw {A} e : calm (@Throw A e).
Proof. split; discriminate. Qed.
Lemma calm_bind {A B} (x : outcome A) (f : A -> outcome B) : calm x -> (forall a, calm (f a)) -> calm (let* a := x in f a).
Proof. intros [H1 H2] Hf. destruct x as [a|e|u|]; cbn; [apply Hf|apply calm_throw|split; congruence|congruence]. Qed.

Lemma calm_assign v r : calm r -> calm (snd (assign_or v r)).
Proof. intros [H1 H2]. destruct r; cbn; [apply calm_ok|apply calm_throw|split; congruence|congruence]. Qed.

Lemma calm_first v : calm (check_first_occurrence v).
Proof. unfold check_first_occurrence. destruct (any_empty v); [apply calm_ok|apply calm_throw]. Qed.

Lemma calm_single xs b : calm (get_single_string xs b).
Proof. unfold get_single_string. destruct xs as [|x [|]]; [destruct b|..]; try apply calm_ok; apply calm_throw. Qed.

Lemma calm_push t elem : forall xs tv, (forall x, In x xs -> calm (snd (elem [x]))) -> calm (snd (push_tokens t elem tv xs)).
Proof.
  induction xs as [|x xs IH]; intros tv H; cbn [push_tokens]; [apply calm_ok|]. assert (E := H x (or_introl eq_refl)).
  destruct (elem [x]) as [a [[]|e|u|]]; cbn [snd] in *; try exact E.
  destruct (any_cast t a); [apply IH; intros y Hy; apply H; now right|apply calm_throw].
Qed.

Lemma validate_calm lc t : forall v xs, (~ boolean t \/ Forall ascii7 xs) -> calm (snd (validate lc t v xs)).
Proof.
  induction t as [| |n|t IH|t IH]; intros v xs H; cbn [validate].
  - destruct H as [H|H]; [contradiction (H I)|]. apply calm_assign, calm_bind; [apply calm_first|]. intros _.
    assert (G : forall s, get_single_string xs true = Ok s -> ascii7 s).
    { unfold get_single_string. destruct xs as [|x [|]]; intros s E; injection E as <- || discriminate E; [constructor|]. now apply Forall_inv in H. }
    destruct (get_single_string xs true) as [s| | |] eqn:E; cbn [bind].
    + unfold bool_of_string. rewrite (mapM_tolower_ascii (G s eq_refl)). cbn [bind].
      destruct (_ || _); [apply calm_ok|]. destruct (_ || _); [apply calm_ok|apply calm_throw].
    + apply calm_throw.
    + exfalso. unfold get_single_string in E. destruct xs as [|? [|]]; discriminate.
    + destruct (proj2 (calm_single xs true) E).
  - apply calm_assign, calm_bind; [apply calm_first|]. intros _. apply calm_bind; [apply calm_single|]. intros. apply calm_ok.
  - apply calm_assign, calm_bind; [apply calm_first|]. intros _. apply calm_bind; [apply calm_single|]. intros s.
    destruct (lc n s); [apply calm_ok|apply calm_throw].
  - unfold validate_vec. cbv zeta. destruct (any_cast _ _) as [[| | |t' vs|]|]; try (split; discriminate).
    assert (P := calm_push t (fun ys => validate lc t None ys) xs vs). destruct (push_tokens _ _ vs xs) as [vs' r]. apply P.
    intros x Hx. apply IH. destruct H as [H|H]; [now left|right]. constructor; [|constructor]. rewrite Forall_forall in H. auto.
  - apply calm_assign, calm_bind; [apply calm_first|]. intros _. apply calm_bind; [apply calm_single|]. intros _.
    assert (E := IH None xs H). destruct (validate lc t None xs) as [a [[]|e|u|]]; cbn [snd] in E; [|apply calm_throw|destruct E; split; congruence|destruct E; congruence].
    destruct (any_cast t a); [apply calm_ok|apply calm_throw].
Qed.

Lemma library_calm t s v xs : library_semantic t s -> (~ boolean t \/ Forall ascii7 xs) -> calm (snd (vs_parse s v xs false)).
Proof.
  intros [(lc & ul & tv & -> & <- & _)|(-> & ul & z & -> & _)] H; cbn [typed untyped vs_parse]; unfold codecvt_parse.
  - unfold tv_xparse. destruct xs as [|x xs]; [destruct (tv_implicit tv) as [[iv ?]|]; [apply calm_ok|]|destruct (tv_implicit tv) as [[? ?]|]]; now apply validate_calm.
  - unfold untyped_xparse. destruct (negb _); [apply calm_throw|]. destruct xs as [|x [|]]; [apply calm_ok|apply calm_ok|apply calm_throw].
Qed.

Lemma store_options_calm ds prefix final : forall opts m nf,
  (forall o d v, In o opts -> find ds (po_key o) false false false = Ok d -> calm (snd (vs_parse (od_sem d) v (po_value o) false))) ->
  calm (snd (store_options ds prefix final false opts m nf)).
Proof.
  induction opts as [|o opts IH]; intros m nf H; cbn [store_options]; [apply calm_ok|]. cbv zeta.
  assert (H' : forall o' d v, In o' opts -> find ds (po_key o') false false false = Ok d -> calm (snd (vs_parse (od_sem d) v (po_value o') false))).
  { intros o' d v Hi. apply H. now right. }
  destruct (is_empty (po_key o)); [apply IH, H'|]. destruct (po_unreg o); [apply IH, H'|]. destruct (ss_mem (po_key o) final); [apply IH, H'|].
  destruct (find ds (po_key o) false false false) as [d|e|u|] eqn:Ed.
  - assert (E := H o d (vv_value (if vv_defaulted (match sm_find (po_key o) m with Some v => v | None => vv_empty end) then vv_empty
                                  else match sm_find (po_key o) m with Some v => v | None => vv_empty end)) (or_introl eq_refl) Ed).
    destruct (vs_parse _ _ _ _) as [a [[]|e|u|]]; cbn [snd] in *; [apply IH, H'|apply calm_throw|destruct E; split; congruence|destruct E; congruence].
  - apply calm_throw.
  - exfalso. unfold find in Ed. apply bind_Undef in Ed. destruct Ed as [Ed|([x|] & _ & Ed)]; try discriminate. now apply no_ub_sensitive in Ed.
  - exfalso. unfold find in Ed. destruct (find_nothrow ds (po_key o) false false false) as [[d|]|e|u|] eqn:En; cbn in Ed; try discriminate.
    now apply find_never_nofuel in En.
Qed.

Lemma store_calm ds opts prefix vm :
  (forall o d v, In o opts -> find ds (po_key o) false false false = Ok d -> calm (snd (vs_parse (od_sem d) v (po_value o) false))) ->
  calm (snd (store (mk_parsed opts (Some ds) prefix) vm false)).
Proof.
  intros H. unfold store. cbn [pr_desc pr_prefix pr_options]. assert (E := store_options_calm ds prefix (vm_final vm) opts (vm_map vm) [] H).
  destruct (store_options _ _ _ _ _ _ _) as [[m nf] r]. cbn [snd] in E. destruct r as [[]|e|u|]; cbn [snd]; try exact E.
  destruct (store_defaults _ _ _ _) as [m' req]. apply calm_ok.
Qed.

(** ** Names *)

Lemma same_case_of_same ci ci' a b : same_name ci ci' a b -> same_up_to_case a b.
Proof.
  intros H. apply same_name_eq in H. exists (map lower_ascii a). split; apply lowered_map; [reflexivity|].
  assert (L : forall s, map lower_ascii (map lower_ascii s) = map lower_ascii s) by (intros s; rewrite map_map; apply map_ext; intros; apply lower_ascii_idem).
  unfold fold_str in H. destruct ci, ci'; [exact H|rewrite <- H; symmetry; apply L|rewrite H; apply L|rewrite H; reflexivity].
Qed.

Lemma same_refl ci a : same_name ci ci a a.
Proof. apply same_name_eq. reflexivity. Qed.

Lemma pairs_excl {A} (P : A -> A -> Prop) (Q : A -> Prop) : (forall x y, P x y -> Q x -> Q y -> False) ->
  forall l sel, ForallOrdPairs P l -> selects Q l sel -> List.length sel <= 1.
Proof.
  intros HP l sel Hp Hs. induction Hs as [|x l sel Hx Hs IH|x l sel Hx Hs IH]; cbn; [lia| |inversion Hp; auto].
  inversion Hp as [|? ? Hf Ho]; subst. clear IH Hp. assert (sel = []) as ->; [|cbn; lia].
  clear Ho. induction Hs as [|y l sel Hy Hs IH|y l sel Hy Hs IH]; [reflexivity| |].
  - exfalso. apply Forall_inv in Hf. eauto.
  - apply Forall_inv_tail in Hf. auto.
Qed.

Lemma selects_In {A} (Q : A -> Prop) l sel x : selects Q l sel -> In x l -> Q x -> In x sel.
Proof.
  induction 1 as [|y l sel Hy Hs IH|y l sel Hy Hs IH]; intros Hi Hx; [destruct Hi|destruct Hi as [->|Hi]; [now left|right; auto]|].
  destruct Hi as [->|Hi]; [contradiction|auto].
Qed.

Lemma selects_sound {A} (Q : A -> Prop) l sel x : selects Q l sel -> In x sel -> In x l /\ Q x.
Proof.
  induction 1 as [|y l sel Hy Hs IH|y l sel Hy Hs IH]; intros Hi; [destruct Hi| |].
  - destruct Hi as [->|Hi]; [split; [now left|assumption]|]. destruct (IH Hi). split; [now right|assumption].
  - destruct (IH Hi). split; [now right|assumption].
Qed.

Lemma full_named d n lic sic : n <> [] -> full d n lic sic -> exists m, In m (all_names d) /\ (same_name lic lic m n \/ same_name sic lic m n).
Proof.
  intros Hn [(l & Hi & _ & Hs)|Hs].
  - exists l. split; [|now left]. unfold all_names. destruct (od_short d); [assumption|now right].
  - exists (od_short d). split; [|now right]. unfold all_names. destruct (od_short d) eqn:E; [|now left].
    exfalso. apply same_name_eq in Hs. symmetry in Hs. rewrite (proj2 (fold_str_nil sic [])) in Hs by reflexivity. apply fold_str_nil in Hs. contradiction.
Qed.

Lemma key_unambiguous ds d n g lic sic : orderly ds ->
  (lic = false /\ sic = false \/ orderly_without_case ds) ->
  In d ds -> In n (od_longs d) -> find_nothrow ds n g lic sic = Ok (Some d).
Proof.
  intros Ho Hc Hd Hn. assert (Hne : n <> []).
  { assert (H := or_names ds Ho). rewrite Forall_forall in H. specialize (H d Hd). rewrite Forall_forall in H. apply (H n Hn). }
  assert (Hf : foldable ds n lic sic).
  { destruct Hc as [[-> ->]|[Ha _]].
    - split; [discriminate|]. apply Forall_forall. intros x _. split; discriminate.
    - rewrite Forall_forall in Ha. assert (Hl : forall x l, In x ds -> In l (od_longs x) -> ascii7 l).
      { intros x l Hx Hl. specialize (Ha x Hx). rewrite Forall_forall in Ha. apply Ha. unfold all_names. destruct (od_short x); [assumption|now right]. }
      split; [eauto|]. apply Forall_forall. intros x Hx. split; intros _; [apply Forall_forall; eauto|].
      specialize (Ha x Hx). unfold all_names in Ha. destruct (od_short x); [constructor|]. now apply Forall_inv in Ha. }
  destruct (@find_characterised_lemma ds n g lic sic Hf) as (fulls & apps & H1 & _ & H2).
  assert (Hfd : full d n lic sic) by (left; exists n; auto using same_refl).
  assert (Hin := selects_In _ _ _ d H1 Hd Hfd).
  assert (Hlen : List.length fulls <= 1).
  { destruct Hc as [[-> ->]|[_ Hc]].
    - eapply pairs_excl; [|exact (or_distinct ds Ho)|exact H1]. intros x y Hxy Hx Hy.
      apply full_named in Hx as (m & Hm & Em); [|assumption]. apply full_named in Hy as (m' & Hm' & Em'); [|assumption].
      assert (m = n) as -> by (destruct Em as [E|E]; apply same_name_eq in E; exact E).
      assert (m' = n) as -> by (destruct Em' as [E|E]; apply same_name_eq in E; exact E). exact (Hxy n Hm Hm').
    - eapply pairs_excl; [|exact Hc|exact H1]. intros x y Hxy Hx Hy.
      apply full_named in Hx as (m & Hm & Em); [|assumption]. apply full_named in Hy as (m' & Hm' & Em'); [|assumption].
      apply (Hxy m m' Hm Hm').
      assert (C : same_up_to_case m n) by (destruct Em as [E|E]; eapply same_case_of_same; exact E).
      assert (C' : same_up_to_case m' n) by (destruct Em' as [E|E]; eapply same_case_of_same; exact E).
      destruct C as (u & U1 & U2), C' as (u' & U1' & U2'). exists u. split; [assumption|]. apply lowered_map in U2, U2'. congruence. }
  destruct fulls as [|d1 [|d2 fulls]]; [destruct Hin| |cbn in Hlen; lia]. destruct Hin as [->|[]]. inversion H2. reflexivity.
Qed.

(** ** Types *)

Lemma key_is_long ds d n : orderly ds -> In d ds -> is_key d n (od_key d n) -> In (od_key d n) (od_longs d) /\ ~ In c_star (od_key d n).
Proof.
  intros Ho Hd Hk. assert (H1 := or_long ds Ho). assert (H2 := or_names ds Ho). rewrite Forall_forall in H1, H2. specialize (H1 d Hd). specialize (H2 d Hd).
  rewrite Forall_forall in H2. destruct Hk as [(f & r & E & Hs & ->)|[(f & r & E & Hs & ->)|[E _]]].
  - rewrite E. split; [now left|assumption].
  - exfalso. apply (H2 f); [rewrite E; now left|assumption].
  - contradiction.
Qed.

(** No name belongs to two options. *)
Lemma owner_unique ds n d d' : orderly ds -> In d ds -> In d' ds -> In n (all_names d) -> In n (all_names d') -> d = d'.
Proof.
  intros Ho. assert (H := or_distinct ds Ho). clear Ho. induction H as [|x l Hx _ IH]; intros Hd Hd' Hn Hn'; [destruct Hd|].
  rewrite Forall_forall in Hx. destruct Hd as [->|Hd], Hd' as [->|Hd']; auto; exfalso.
  - exact (Hx d' Hd' n Hn Hn').
  - exact (Hx d Hd n Hn' Hn).
Qed.

Lemma found_named ds n d : orderly ds -> n <> [] -> find ds n false false false = Ok d -> In d ds /\ In n (all_names d).
Proof.
  intros Ho Hn H. assert (Hf : foldable ds n false false) by (split; [discriminate|]; apply Forall_forall; intros x _; split; discriminate).
  unfold find in H. apply bind_Ok in H as ([d'|] & H & E); [|discriminate]. injection E as ->.
  split; [eapply find_found_In; exact H|].
  destruct (@find_characterised_lemma ds n false false false Hf) as (fulls & apps & H1 & H2 & H3). rewrite H in H3.
  assert (G := fun Q sel => @selects_sound _ Q ds sel d).
  inversion H3; subst.
  - destruct (G _ _ H1 (or_introl eq_refl)) as [_ F]. apply full_named in F as (m & Hm & E); [|assumption].
    assert (m = n) as -> by (destruct E as [E|E]; apply same_name_eq in E; exact E). exact Hm.
  - exfalso. destruct (G _ _ H2 (or_introl eq_refl)) as [Hd [_ [(l & p & t & Hl & Hp & _)|[E _]]]]; [|discriminate]. cbn in Hp. subst l.
    assert (Hx := or_names ds Ho). rewrite Forall_forall in Hx. specialize (Hx d Hd). rewrite Forall_forall in Hx.
    apply (proj2 (Hx _ Hl)). apply in_or_app. right. now left.
Qed.

Lemma types_exist ds : orderly ds -> exists ty, forall name d,
  find ds name false false false = Ok d \/ (In d ds /\ is_key d [] name) -> library_semantic (ty name) (od_sem d).
Proof.
  intros Ho. assert (T : exists ty, forall n d, In d ds -> In n (all_names d) -> library_semantic (ty n) (od_sem d)).
  { assert (U := owner_unique ds). specialize (U). assert (U' : forall n d d', In d ds -> In d' ds -> In n (all_names d) -> In n (all_names d') -> d = d')
      by (intros n d d'; apply U; exact Ho). clear U. assert (L := or_library ds Ho). clear Ho.
    induction L as [|d ds [t Ht] L IH]; [exists (fun _ => TBool); intros ? ? []|].
    destruct IH as [ty Hty]; [intros n x y Hx Hy; apply U'; now right|].
    exists (fun n => if existsb (str_eqb n) (all_names d) then t else ty n). intros n x Hx Hn.
    destruct (existsb (str_eqb n) (all_names d)) eqn:E.
    - apply existsb_exists in E as (m & Hm & E). apply str_eqb_eq in E. subst m.
      rewrite (U' n x d Hx (or_introl eq_refl) Hn Hm). exact Ht.
    - destruct Hx as [->|Hx]; [|auto]. exfalso. assert (existsb (str_eqb n) (all_names x) = true); [|congruence].
      apply existsb_exists. exists n. split; [assumption|]. apply str_eqb_eq. reflexivity. }
  destruct T as [ty Hty].
  assert (Z : exists t, forall d, find ds [] false false false = Ok d -> library_semantic t (od_sem d)).
  { destruct (find ds [] false false false) as [d|e|u|] eqn:E; try (exists TBool; discriminate).
    unfold find in E. apply bind_Ok in E as ([d'|] & E & E'); [|discriminate]. injection E' as ->. apply find_found_In in E.
    assert (L := or_library ds Ho). rewrite Forall_forall in L. destruct (L d E) as [t Ht]. exists t. intros x [= <-]. exact Ht. }
  destruct Z as [t Ht]. exists (fun n => if is_empty n then t else ty n). intros name d [H|[Hd Hk]].
  - destruct name as [|x name]; [cbn; auto|]. apply (found_named ds _ d Ho) in H as [H1 H2]; [|discriminate]. cbn [is_empty]. auto.
  - assert (K := is_key_unique Hk). subst name. apply (key_is_long ds d [] Ho Hd) in Hk as [Hk _].
    assert (N := or_names ds Ho). rewrite Forall_forall in N. specialize (N d Hd). rewrite Forall_forall in N. specialize (N _ Hk).
    destruct (od_key d []) as [|x k]; [destruct N; contradiction|]. cbn [is_empty]. apply Hty; [assumption|].
    unfold all_names. destruct (od_short d); [assumption|now right].
Qed.
