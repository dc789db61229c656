(** Options that differ in texts only: lemmas. *)

From Coq Require Import List Ascii String NArith ZArith Bool Lia.
From Verif Require Import Base Errors Values OptDesc Format Positional Cmdline Parsers ConfigFile VarMap SpecTexts.
Import ListNotations.

(** The outcomes are the same, up to a relation on what is returned. *)
Inductive agree {A B} (R : A -> B -> Prop) : outcome A -> outcome B -> Prop :=
| agree_ok a b : R a b -> agree R (Ok a) (Ok b)
| agree_throw e : agree R (Throw e) (Throw e)
| agree_undef u : agree R (Undef u) (Undef u)
| agree_nofuel : agree R NoFuel NoFuel.

Definition both {A B} (R : A -> B -> Prop) (x : option A) (y : option B) : Prop :=
  match x, y with None, None => True | Some a, Some b => R a b | _, _ => False end.

Lemma agree_eq {A} (x y : outcome A) : agree eq x y -> x = y.
Proof. destruct 1; congruence. Qed.

Lemma agree_refl {A} (x : outcome A) : agree eq x x.
Proof. destruct x; constructor. reflexivity. Qed.

Lemma agree_bind {A B} (R : A -> B -> Prop) {C D} (Q : C -> D -> Prop) x y f g :
  agree R x y -> (forall a b, R a b -> agree Q (f a) (g b)) -> agree Q (let* a := x in f a) (let* b := y in g b).
Proof. intros H Hf. destruct H; cbn; [apply Hf; assumption|constructor|constructor|constructor]. Qed.

Lemma agree_bind_eq {A B} (R : A -> B -> Prop) {C} x y (f : A -> outcome C) (g : B -> outcome C) :
  agree R x y -> (forall a b, R a b -> f a = g b) -> (let* a := x in f a) = (let* b := y in g b).
Proof. intros H Hf. destruct H; cbn; auto. Qed.

Lemma agree_context {A B} (R : A -> B -> Prop) k t p x y : agree R x y -> agree R (with_context k t p x) (with_context k t p y).
Proof. destruct 1; cbn; constructor; assumption. Qed.

Lemma match_texts d d' n g l s : same_but_texts d d' -> od_match d n g l s = od_match d' n g l s.
Proof. intros (H1 & H2 & _). unfold od_match. rewrite H1, H2. reflexivity. Qed.

Lemma key_texts d d' n : same_but_texts d d' -> od_key d n = od_key d' n.
Proof. intros (H1 & H2 & _). unfold od_key. rewrite H1, H2. reflexivity. Qed.

Lemma find_loop_texts n g l s : forall ds ds', Forall2 same_but_texts ds ds' -> forall st st',
  both same_but_texts (fs_found st) (fs_found st') -> fs_had_full st = fs_had_full st' -> fs_approx st = fs_approx st' -> fs_full st = fs_full st' ->
  agree (fun x y => both same_but_texts (fs_found x) (fs_found y) /\ fs_approx x = fs_approx y /\ fs_full x = fs_full y)
    (find_loop n g l s ds st) (find_loop n g l s ds' st').
Proof.
  intros ds ds' H. induction H as [|d d' ds ds' Hd _ IH]; intros st st' H1 H2 H3 H4; cbn.
  - constructor. auto.
  - rewrite (match_texts d d' n g l s Hd), (key_texts d d' n Hd). destruct (od_match d' n g l s) as [[]|e|u|]; cbn; [| | |constructor|constructor|constructor].
    + apply IH; assumption.
    + apply IH; cbn; congruence.
    + apply IH; cbn; [|congruence..]. rewrite H2. destruct (fs_had_full st'); [assumption|exact Hd].
Qed.

Lemma find_nothrow_texts ds ds' n g l s : Forall2 same_but_texts ds ds' ->
  agree (both same_but_texts) (find_nothrow ds n g l s) (find_nothrow ds' n g l s).
Proof.
  intros H. unfold find_nothrow. eapply agree_bind; [apply (find_loop_texts n g l s ds ds' H); cbn; auto|].
  intros a b (H1 & H2 & H3). rewrite H2, H3. destruct (1 <? _)%nat; [constructor|]. destruct (is_empty _ && _); constructor. exact H1.
Qed.

Lemma find_texts ds ds' n g l s : Forall2 same_but_texts ds ds' -> agree same_but_texts (find ds n g l s) (find ds' n g l s).
Proof.
  intros H. unfold find. eapply agree_bind; [apply find_nothrow_texts; exact H|]. intros [a|] [b|] Hab; cbn in Hab; try contradiction; constructor. exact Hab.
Qed.

Section Parser.
Variables c c' : cmdline.
Hypothesis Hc : same_parser c c'.

Lemma p_style : cl_style c = cl_style c'.
Proof. apply Hc. Qed.
Lemma p_unreg : cl_allow_unregistered c = cl_allow_unregistered c'.
Proof. apply Hc. Qed.
Lemma p_desc : Forall2 same_but_texts (cl_desc c) (cl_desc c').
Proof. apply Hc. Qed.
Lemma p_pos : cl_positional c = cl_positional c'.
Proof. apply Hc. Qed.
Lemma p_add : cl_additional c = cl_additional c'.
Proof. apply Hc. Qed.
Lemma p_sp : cl_style_parser c = cl_style_parser c'.
Proof. apply Hc. Qed.

Lemma prefix_texts : cl_prefix c = cl_prefix c'.
Proof. unfold cl_prefix. rewrite p_style. reflexivity. Qed.

Lemma lookup_texts n : agree (both same_but_texts) (lookup c n) (lookup c' n).
Proof. unfold lookup. rewrite p_style. apply find_nothrow_texts, p_desc. Qed.

(** Two style parsers that do the same. *)
Definition same_sp (p q : style_parser) : Prop := forall args, p args = q args.

Lemma long_texts : same_sp (parse_long_option c) (parse_long_option c').
Proof. intros args. unfold parse_long_option. rewrite prefix_texts. reflexivity. Qed.

Lemma short_loop_texts tok : forall adjacent n result, short_loop c tok n adjacent result = short_loop c' tok n adjacent result.
Proof.
  induction adjacent as [|a adjacent IH]; intros n result; cbn [short_loop]; rewrite prefix_texts, p_style;
    (eapply agree_bind_eq; [apply agree_context, find_nothrow_texts, p_desc|]); intros [d|] [d'|] Hd; cbn in Hd; try contradiction; try reflexivity.
  destruct Hd as (_ & _ & Hs). rewrite (ss_max _ _ Hs). destruct (_ && _); [apply IH|reflexivity].
Qed.

Lemma short_texts : same_sp (parse_short_option c) (parse_short_option c').
Proof.
  intros args. unfold parse_short_option. destruct (at_index args 0) as [tok| | |]; cbn; try reflexivity.
  destruct tok as [|c1 [|c2 adjacent]]; try reflexivity. rewrite short_loop_texts. reflexivity.
Qed.

Lemma disguised_texts : same_sp (parse_disguised_long_option c) (parse_disguised_long_option c').
Proof.
  intros args. unfold parse_disguised_long_option. destruct (at_index args 0) as [tok| | |]; cbn [bind]; try reflexivity.
  destruct tok as [|c1 [|c2 adjacent]]; try reflexivity. rewrite p_style. destruct (_ || _); [|reflexivity].
  rewrite prefix_texts. eapply agree_bind_eq; [apply agree_context, lookup_texts|].
  intros [d|] [d'|] Hd; cbn in Hd; try contradiction; [|reflexivity].
  destruct (erase_front args); cbn [bind]; try reflexivity. rewrite long_texts. reflexivity.
Qed.

Lemma dos_texts : same_sp (parse_dos_option c) (parse_dos_option c').
Proof. intros args. reflexivity. Qed.

Lemma sps_texts : Forall2 same_sp (style_parsers c) (style_parsers c').
Proof.
  unfold style_parsers. rewrite p_style, p_sp, p_add.
  repeat apply Forall2_app; repeat match goal with |- Forall2 _ (match ?x with _ => _ end) _ => destruct x end;
    repeat constructor; auto using long_texts, short_texts, disguised_texts, dos_texts; intros args; reflexivity.
Qed.

Lemma looks_texts : forall ps qs, Forall2 same_sp ps qs -> forall args, looks_like_option ps args = looks_like_option qs args.
Proof.
  intros ps qs H. induction H as [|p q ps qs Hp _ IH]; intros args; cbn; [reflexivity|]. rewrite Hp.
  destruct (q args) as [[o rest]| | |]; cbn; try reflexivity. destruct (is_empty o); [apply IH|reflexivity].
Qed.

Lemma grab_texts ps qs key : Forall2 same_sp ps qs -> forall other tok_exc min opt,
  grab_tokens c ps key tok_exc min opt other = grab_tokens c' qs key tok_exc min opt other.
Proof.
  intros H. induction other as [|tok rest IH]; intros tok_exc min opt; cbn [grab_tokens]; [reflexivity|].
  destruct (Z.eqb min 0); [reflexivity|]. rewrite prefix_texts, (looks_texts ps qs H).
  destruct (with_context key tok_exc (cl_prefix c') (looks_like_option qs [tok])) as [[]| | |]; cbn [bind]; try reflexivity; [|apply IH].
  assert (E : (let* od := with_context key tok (cl_prefix c') (lookup c tok) in
               match od with
               | Some _ => with_context key tok (cl_prefix c') (Throw (mk_cmdline_syntax missing_parameter [] [] 0))
               | None => Ok tok
               end) =
              (let* od := with_context key tok (cl_prefix c') (lookup c' tok) in
               match od with
               | Some _ => with_context key tok (cl_prefix c') (Throw (mk_cmdline_syntax missing_parameter [] [] 0))
               | None => Ok tok
               end)).
  { eapply agree_bind_eq; [apply agree_context, lookup_texts|]. intros [d|] [d'|] Hd; cbn in Hd; try contradiction; reflexivity. }
  rewrite E. destruct (let* od := with_context key tok (cl_prefix c') (lookup c' tok) in _); cbn [bind]; try reflexivity. apply IH.
Qed.

Lemma finish_texts ps qs opt other : Forall2 same_sp ps qs -> finish_option c ps opt other = finish_option c' qs opt other.
Proof.
  intros H. unfold finish_option. destruct (is_empty (po_key opt)); [reflexivity|]. cbv zeta. rewrite prefix_texts.
  eapply agree_bind_eq; [apply agree_context, lookup_texts|]. intros [d|] [d'|] Hd; cbn in Hd; try contradiction.
  - rewrite (key_texts d d' (po_key opt) Hd). destruct Hd as (_ & _ & Hs). rewrite (ss_min _ _ Hs), (ss_max _ _ Hs).
    destruct (Z.leb _ _); [|reflexivity]. destruct (_ && _); [reflexivity|]. apply grab_texts. exact H.
  - rewrite p_unreg. reflexivity.
Qed.

Lemma finish_all_texts ps qs : Forall2 same_sp ps qs -> forall next args, finish_all c ps next args = finish_all c' qs next args.
Proof.
  intros H. induction next as [|o next IH]; intros args; [reflexivity|]. destruct next as [|o2 next].
  - cbn. rewrite (finish_texts ps qs o args H). reflexivity.
  - change (finish_all c ps (o :: o2 :: next) args) with
      (let* r := finish_option c ps o [] in let* rs := finish_all c ps (o2 :: next) args in Ok (fst r :: fst rs, snd rs)).
    change (finish_all c' qs (o :: o2 :: next) args) with
      (let* r := finish_option c' qs o [] in let* rs := finish_all c' qs (o2 :: next) args in Ok (fst r :: fst rs, snd rs)).
    rewrite (finish_texts ps qs o [] H). rewrite IH. reflexivity.
Qed.

Lemma try_texts ps qs : Forall2 same_sp ps qs -> forall todo todo', Forall2 same_sp todo todo' -> forall args,
  try_parsers c ps todo args = try_parsers c' qs todo' args.
Proof.
  intros H todo todo' Ht. induction Ht as [|p q todo todo' Hp _ IH]; intros args; cbn [try_parsers]; [reflexivity|]. rewrite Hp.
  destruct (q args) as [[next args1]| | |]; cbn [bind]; try reflexivity. rewrite (finish_all_texts ps qs H).
  destruct (finish_all c' qs next args1) as [[f args2]| | |]; cbn [bind]; try reflexivity.
  destruct (Nat.eqb _ _); [|reflexivity]. rewrite IH. reflexivity.
Qed.

Lemma main_loop_texts : forall fuel args, main_loop fuel c args = main_loop fuel c' args.
Proof.
  induction fuel as [|fuel IH]; intros [|tok args]; cbn [main_loop]; try reflexivity. unfold main_step.
  rewrite (try_texts _ _ sps_texts _ _ sps_texts). destruct (try_parsers c' _ _ _) as [[[opts args1] ok]| | |]; cbn [bind]; try reflexivity.
  destruct ok; cbn [bind fst snd]; [rewrite IH; reflexivity|]. destruct (at_index args1 0); cbn [bind]; try reflexivity.
  destruct (erase_front args1); cbn [bind fst snd]; try reflexivity. rewrite IH. reflexivity.
Qed.

Lemma merge_texts : forall fuel result, merge_pass fuel c result = merge_pass fuel c' result.
Proof.
  induction fuel as [|fuel IH]; intros [|opt rest]; cbn [merge_pass]; try reflexivity. rewrite IH. destruct (is_empty (po_key opt)); [reflexivity|].
  rewrite prefix_texts. eapply agree_bind_eq with (R := both same_but_texts).
  - destruct (lookup_texts (po_key opt)) as [a b H|e|u|]; try constructor; [exact H|].
    destruct (has_option_name (ex_class e)); [|constructor]. destruct (at_index (po_orig opt) 0); cbn; constructor.
  - intros [d|] [d'|] Hd; cbn in Hd; try contradiction; [|reflexivity]. destruct Hd as (_ & _ & Hs). rewrite (ss_min _ _ Hs), (ss_max _ _ Hs).
    destruct (_ && _); [|reflexivity]. destruct (grab_positional _ opt rest) as [g| | |]; cbn [bind]; try reflexivity. rewrite IH. reflexivity.
Qed.

Lemma run_texts fuel args : run fuel c args = run fuel c' args.
Proof.
  unfold run. rewrite main_loop_texts. destruct (main_loop fuel c' args) as [r1| | |]; cbn [bind]; try reflexivity. rewrite merge_texts, p_pos.
  destruct (merge_pass _ c' r1) as [r2| | |]; cbn [bind]; try reflexivity.
  destruct (match cl_positional c' with Some p => _ | None => _ end); cbn [bind]; try reflexivity. f_equal. apply map_ext.
  intros o. unfold set_case_flag. rewrite p_style. reflexivity.
Qed.
End Parser.

(** ** Config files *)

Lemma allowed_texts : forall ds ds', Forall2 same_but_texts ds ds' -> forall a, cf_allowed ds a = cf_allowed ds' a.
Proof.
  intros ds ds' H. induction H as [|d d' ds ds' (_ & Hl & _) _ IH]; intros a; cbn; [reflexivity|]. unfold od_long_name. rewrite Hl.
  destruct (is_empty _); [reflexivity|apply IH].
Qed.

(** ** Maps *)

Lemma same_semantic_refl s : same_semantic s s.
Proof. constructor; reflexivity. Qed.

Lemma sm_find_same name : forall m m', Forall2 same_entry m m' ->
  both (fun v v' => same_entry ([], v) ([], v')) (sm_find name m) (sm_find name m').
Proof.
  intros m m' H. induction H as [|[k v] [k' v'] m m' (H1 & H2 & H3 & H4) _ IH]; cbn in *; [exact I|]. subst k'.
  destruct (str_eqb name k); [|exact IH]. cbn. repeat split; assumption.
Qed.

Lemma sm_set_same name v v' : same_entry ([], v) ([], v') -> forall m m', Forall2 same_entry m m' -> Forall2 same_entry (sm_set name v m) (sm_set name v' m').
Proof.
  intros (_ & V). assert (E : same_entry (name, v) (name, v')) by (split; [reflexivity|exact V]).
  intros m m' H. induction H as [|[k x] [k' x'] m m' Hx Hm IH]; cbn.
  - constructor; [exact E|constructor].
  - assert (k = k') as <- by (exact (proj1 Hx)). destruct (str_cmp name k); repeat (constructor; try assumption).
Qed.

Lemma sm_mem_same name m m' : Forall2 same_entry m m' -> sm_mem name m = sm_mem name m'.
Proof. intros H. assert (F := sm_find_same name m m' H). unfold sm_mem. destruct (sm_find name m), (sm_find name m'); cbn in F; [reflexivity|contradiction|contradiction|reflexivity]. Qed.

Lemma store_options_texts ds ds' prefix final utf8 : Forall2 same_but_texts ds ds' -> forall opts m m' nf, Forall2 same_entry m m' ->
  let x := store_options ds prefix final utf8 opts m nf in let y := store_options ds' prefix final utf8 opts m' nf in
  Forall2 same_entry (fst (fst x)) (fst (fst y)) /\ snd (fst x) = snd (fst y) /\ snd x = snd y.
Proof.
  intros H. induction opts as [|o opts IH]; intros m m' nf Hm; cbn [store_options]; [cbn; auto|]. cbv zeta.
  destruct (is_empty (po_key o)); [apply IH; exact Hm|]. destruct (po_unreg o); [apply IH; exact Hm|]. destruct (ss_mem (po_key o) final); [apply IH; exact Hm|].
  destruct (find_texts ds ds' (po_key o) false false false H) as [d d' (_ & _ & Hs)|e|u|]; cbn [fst snd]; auto.
  set (v0 := match sm_find (po_key o) m with Some v => v | None => vv_empty end).
  set (v0' := match sm_find (po_key o) m' with Some v => v | None => vv_empty end).
  assert (H0 : same_entry ([], v0) ([], v0')).
  { assert (F := sm_find_same (po_key o) m m' Hm). unfold v0, v0'. destruct (sm_find (po_key o) m), (sm_find (po_key o) m'); cbn in F; try contradiction; [exact F|].
    repeat split. }
  set (v1 := if vv_defaulted v0 then vv_empty else v0). set (v1' := if vv_defaulted v0' then vv_empty else v0').
  assert (H1 : same_entry ([], v1) ([], v1')).
  { unfold v1, v1'. assert (B := proj1 (proj2 (proj2 H0))). cbn in B. rewrite B. destruct (vv_defaulted v0'); [repeat split|exact H0]. }
  destruct H1 as (_ & A & B & C). cbn [snd] in A, B, C. rewrite A, (ss_parse _ _ Hs), (ss_composing _ _ Hs).
  destruct (vs_parse (od_sem d') (vv_value v1') (po_value o) utf8) as [a r]. destruct r as [[]|e|u|]; cbn [fst snd]; auto.
  - apply IH. apply sm_set_same; [|exact Hm]. split; [reflexivity|]. cbn. split; [reflexivity|]. split; [exact B|exact Hs].
  - split; [|auto]. apply sm_set_same; [|exact Hm]. split; [reflexivity|]. cbn. split; [reflexivity|]. split; [exact B|exact C].
Qed.

Lemma store_defaults_texts prefix : forall ds ds', Forall2 same_but_texts ds ds' -> forall m m' req, Forall2 same_entry m m' ->
  let x := store_defaults ds prefix m req in let y := store_defaults ds' prefix m' req in Forall2 same_entry (fst x) (fst y) /\ snd x = snd y.
Proof.
  intros ds ds' H. induction H as [|d d' ds ds' Hd _ IH]; intros m m' req Hm; cbn [store_defaults]; [cbn; auto|]. cbv zeta.
  rewrite (key_texts d d' [] Hd). destruct (is_empty (od_key d' [])); [apply IH; exact Hm|].
  assert (E : canonical_display_name d prefix = canonical_display_name d' prefix).
  { destruct Hd as (H1 & H2 & _). unfold canonical_display_name. rewrite H1, H2. reflexivity. }
  rewrite E. destruct Hd as (_ & _ & Hs). rewrite (ss_required _ _ Hs), (sm_mem_same _ m m' Hm), (ss_default _ _ Hs). apply IH.
  destruct (sm_mem _ m'); [exact Hm|]. destruct (vs_default (od_sem d')); [|exact Hm]. apply sm_set_same; [|exact Hm]. repeat split; apply Hs.
Qed.

Lemma store_texts ds ds' opts prefix utf8 vm vm' : Forall2 same_but_texts ds ds' -> same_map vm vm' ->
  let x := store (mk_parsed opts (Some ds) prefix) vm utf8 in let y := store (mk_parsed opts (Some ds') prefix) vm' utf8 in
  same_map (fst x) (fst y) /\ snd x = snd y.
Proof.
  intros H (M1 & M2 & M3). cbv zeta. unfold store. cbn [pr_desc pr_prefix pr_options]. rewrite M2, M3.
  destruct (store_options_texts ds ds' prefix (vm_final vm') utf8 H opts _ _ [] M1) as (A & B & C).
  destruct (store_options ds prefix (vm_final vm') utf8 opts (vm_map vm) []) as [[m nf] r].
  destruct (store_options ds' prefix (vm_final vm') utf8 opts (vm_map vm') []) as [[m' nf'] r']. cbn [fst snd] in A, B, C. subst nf' r'.
  destruct r as [[]|e|u|]; cbn [fst snd]; try (split; [repeat split; assumption|reflexivity]).
  destruct (store_defaults_texts prefix ds ds' H m m' (vm_required vm') A) as [D E].
  destruct (store_defaults ds prefix m (vm_required vm')) as [x req]. destruct (store_defaults ds' prefix m' (vm_required vm')) as [y req']. cbn [fst snd] in D, E. subst req'.
  cbn [fst snd]. split; [|reflexivity]. repeat split; assumption.
Qed.

Lemma run_notify_texts : forall m m', Forall2 same_entry m m' -> run_notify m = run_notify m'.
Proof.
  intros m m' H. induction H as [|[k v] [k' v'] m m' (_ & H2 & _ & H4) _ IH]; cbn [run_notify]; [reflexivity|]. cbn in H2, H4.
  destruct (vv_sem v), (vv_sem v'); try contradiction; [|exact IH]. rewrite H2, (ss_notify _ _ H4), IH. reflexivity.
Qed.

Lemma check_required_texts : forall req m m', Forall2 same_entry m m' -> check_required req m = check_required req m'.
Proof.
  induction req as [|[o s] req IH]; intros m m' H; cbn [check_required]; [reflexivity|].
  assert (F := sm_find_same o m m' H). destruct (sm_find o m) as [v|], (sm_find o m') as [v'|]; cbn in F; try contradiction; [|reflexivity].
  destruct F as (_ & E & _). cbn in E. rewrite E, (IH m m' H). reflexivity.
Qed.

(** ** Help *)

Lemma first_column_looks d d' : looks_same d d' -> first_column d = first_column d'.
Proof.
  intros (H1 & H2 & _ & H4 & H5). unfold first_column, format_name, format_parameter. rewrite H1, H2, H4.
  replace (Z.eqb (vs_max (od_sem d)) 0) with (Z.eqb (vs_max (od_sem d')) 0); [reflexivity|].
  destruct (Z.eqb_spec (vs_max (od_sem d)) 0), (Z.eqb_spec (vs_max (od_sem d')) 0); tauto.
Qed.

Lemma max_column_looks : forall ds ds', Forall2 looks_same ds ds' -> forall w, max_column w ds = max_column w ds'.
Proof.
  intros ds ds' H. induction H as [|d d' ds ds' Hd _ IH]; intros w; cbn; [reflexivity|]. rewrite (first_column_looks d d' Hd).
  destruct (first_column d'); cbn; auto.
Qed.

Lemma print_options_looks nd w L : forall o o', Forall2 (fun x y => looks_same (fst x) (fst y) /\ snd x = snd y) o o' ->
  print_options nd o w L = print_options nd o' w L.
Proof.
  intros o o' H. induction H as [|[d b] [d' b'] o o' [Hd Hb] _ IH]; cbn in *; [reflexivity|]. subst b'. rewrite IH. destruct b; [reflexivity|].
  unfold format_one. rewrite (first_column_looks d d' Hd). destruct Hd as (_ & _ & -> & _). reflexivity.
Qed.

Lemma width_looks : forall od od', look_same od od' -> get_option_column_width od = get_option_column_width od'.
Proof.
  fix IH 1. intros [cap L m opts groups] od' H. inversion H as [? ? ? ? opts' ? groups' Ho Hg]; subst. clear H. cbn [get_option_column_width].
  assert (E : max_column 23 (map fst opts) = max_column 23 (map fst opts')).
  { apply max_column_looks. clear Hg IH. induction Ho as [|x y o o' [Hx _] _ IH]; constructor; assumption. }
  rewrite E. clear E Ho. destruct (max_column 23 (map fst opts')) as [w| | |]; cbn [bind]; try reflexivity.
  match goal with |- bind ?x _ = bind ?y _ => assert (E : x = y); [|rewrite E; reflexivity] end.
  revert w groups' Hg. induction groups as [|g groups IHg]; intros w groups' Hg; inversion Hg as [|? g' ? groups'' H1 H2]; subst; [reflexivity|].
  cbn. rewrite (IH g g' H1). destruct (get_option_column_width g'); cbn; try reflexivity. apply IHg. exact H2.
Qed.

Lemma print_looks nd : forall od od', look_same od od' -> forall w, print nd od w = print nd od' w.
Proof.
  fix IH 1. intros od od' H w. assert (W := width_looks od od' H). destruct od as [cap L m opts groups].
  inversion H as [? ? ? ? opts' ? groups' Ho Hg]; subst. clear H. cbn [print]. rewrite W.
  destruct (if Z.eqb w 0 then _ else _) as [w'| | |]; cbn [bind]; try reflexivity. clear W. rewrite (print_options_looks nd w' L opts opts' Ho).
  destruct (print_options nd opts' w' L); cbn [bind]; try reflexivity.
  match goal with |- bind ?x _ = bind ?y _ => assert (E : x = y); [|rewrite E; reflexivity] end. clear Ho.
  revert groups' Hg. induction groups as [|g groups IHg]; intros groups' Hg; inversion Hg as [|? g' ? groups'' H1 H2]; subst; [reflexivity|].
  specialize (IHg groups'' H2). cbn in IHg |- *. rewrite (IH g g' H1), IHg. reflexivity.
Qed.
