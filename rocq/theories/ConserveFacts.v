(** Allowing unregistered options only accepts more. *)

From Coq Require Import List Ascii String NArith ZArith Bool Arith Lia.
From Verif Require Import Base Errors Spec BaseFacts Values OptDesc SpecLookup LookupFacts Positional Cmdline
  SpecCmdline CmdlineFacts RunFacts ReadFacts SoundFacts SpecReject SpecGrammar GrammarFacts Parsers ConfigFile SpecConserve.
Import ListNotations.

(** The outcome [y] of the strict parser against the outcome [x] of the other one: the same; or it is [unknown_option],
    which happens whenever the other one has an unregistered option in its result. *)
Inductive stricter {A} (reg : A -> Prop) : outcome A -> outcome A -> Prop :=
| st_same x : (forall v, x = Ok v -> reg v) -> stricter reg x x
| st_unknown x e : ex_class e = unknown_option -> (forall v, x = Ok v -> ~ reg v) -> stricter reg x (Throw e).

Lemma stricter_bind {A B} (reg : A -> Prop) (reg2 : B -> Prop) x y f g :
  stricter reg x y -> (forall v, x = Ok v -> reg v -> stricter reg2 (f v) (g v)) ->
  (forall v w, x = Ok v -> ~ reg v -> f v = Ok w -> ~ reg2 w) ->
  stricter reg2 (bind x f) (bind y g).
Proof.
  intros H Hs Hn. destruct H as [x Hx|x e He Hx].
  - destruct x as [v|e|u|]; cbn [bind]; auto; apply st_same; discriminate.
  - cbn [bind]. apply st_unknown; auto. intros w Hw. apply bind_Ok in Hw. destruct Hw as (v & -> & Hw). eapply Hn; eauto.
Qed.

Definition is_reg (o : popt) : Prop := po_unreg o = false.
Notation all_reg := all_registered.

Lemma all_reg_app a b : all_reg (a ++ b) <-> all_reg a /\ all_reg b.
Proof. apply Forall_app. Qed.

(** Parsers which give the same outcomes can be exchanged. *)
Definition same_parser (p q : style_parser) : Prop := forall args, p args = q args.

Lemma looks_ptw ps qs : Forall2 same_parser ps qs -> forall args, looks_like_option ps args = looks_like_option qs args.
Proof.
  induction 1 as [|p q ps qs H _ IH]; intros args; cbn [looks_like_option]; auto. rewrite H.
  destruct (q args) as [[os r]| | |]; cbn [bind]; auto. destruct (is_empty os); auto.
Qed.

Lemma grab_ptw c ps qs key : Forall2 same_parser ps qs -> forall other e m opt,
  grab_tokens c ps key e m opt other = grab_tokens c qs key e m opt other.
Proof.
  intros H. induction other as [|tok rest IH]; intros e m opt; cbn [grab_tokens]; auto. rewrite (looks_ptw _ _ H).
  destruct (Z.eqb m 0); auto. destruct (with_context _ _ _ _) as [[|]| | |]; cbn [bind]; auto.
  destruct (with_context _ _ _ _) as [[d|]| | |]; cbn [bind]; auto.
Qed.

Lemma finish_ptw c ps qs : Forall2 same_parser ps qs -> forall opt other, finish_option c ps opt other = finish_option c qs opt other.
Proof.
  intros H opt other. unfold finish_option. destruct (is_empty (po_key opt)); auto.
  destruct (with_context _ _ _ _) as [[d|]| | |]; cbn [bind]; auto. now rewrite (grab_ptw _ _ _ _ H).
Qed.

Lemma finish_all_ptw c ps qs : Forall2 same_parser ps qs -> forall os args, finish_all c ps os args = finish_all c qs os args.
Proof.
  intros H. induction os as [|o os IH]; intros args; [reflexivity|]. destruct os as [|o2 os].
  - cbn [finish_all]. now rewrite (finish_ptw _ _ _ H).
  - rewrite !finish_all_cons. now rewrite (finish_ptw _ _ _ H), IH.
Qed.

Lemma try_ptw c ps qs : Forall2 same_parser ps qs -> forall ps' qs', Forall2 same_parser ps' qs' ->
  forall args, try_parsers c ps ps' args = try_parsers c qs qs' args.
Proof.
  intros H. induction 1 as [|p q ps' qs' Hp _ IH]; intros args; cbn [try_parsers]; auto. rewrite Hp.
  destruct (q args) as [[os r]| | |]; cbn [bind]; auto. rewrite (finish_all_ptw _ _ _ H).
  destruct (finish_all _ _ _ _) as [[fs a]| | |]; cbn [bind]; auto. now rewrite IH.
Qed.

Lemma short_lax c tok : forall adj name res, short_loop (strict c) tok name adj res = short_loop (lax c) tok name adj res.
Proof.
  induction adj as [|a adj IH]; intros name res; cbn [short_loop]; change (cl_desc (strict c)) with (cl_desc (lax c));
    change (cl_style (strict c)) with (cl_style (lax c)); change (cl_prefix (strict c)) with (cl_prefix (lax c)); auto.
  destruct (with_context _ _ _ _) as [[d|]| | |]; cbn [bind]; auto. now rewrite IH.
Qed.

Lemma parsers_lax c : Forall2 same_parser (style_parsers (strict c)) (style_parsers (lax c)).
Proof.
  unfold style_parsers. change (cl_style (strict c)) with (cl_style (lax c)).
  change (cl_additional (strict c)) with (cl_additional (lax c)). change (cl_style_parser (strict c)) with (cl_style_parser (lax c)).
  assert (R : forall l, Forall2 same_parser l l).
  { induction l; [constructor|]. apply Forall2_cons; [intros args; reflexivity|assumption]. }
  repeat apply Forall2_app; try apply R; destruct (has _ _); cbn [andb]; try apply R. destruct (has _ _); [|apply R].
  apply Forall2_cons; [|constructor]. intros args. unfold parse_short_option.
  destruct (at_index args 0) as [[|c1 [|c2 adj]]| | |]; cbn [bind]; auto. now rewrite short_lax.
Qed.

Section Conserve.
Variable c : cmdline.
Hypothesis no_style_parser : cl_style_parser c = None.

Lemma reader_reg p R N : reader p R N -> p [] = Undef UB_index ->
  forall args os args', p args = Ok (os, args') -> all_reg os.
Proof.
  intros [Hp _] E args os args' H. destruct args as [|tok rest]; [congruence|].
  apply Hp in H. destruct H as [(ms & HR & [= -> ->])|[_ [= -> ->]]]; [|constructor].
  apply Forall_forall. intros o Ho. apply in_map_iff in Ho. destruct Ho as (m & <- & _). reflexivity.
Qed.

Lemma terminator_reg args os args' : parse_terminator args = Ok (os, args') -> all_reg os.
Proof.
  intros H. unfold parse_terminator in H. destruct args as [|tok rest]; [discriminate|].
  cbn [at_index nth_error bind tl] in H. destruct (str_eqb tok $"--"); injection H as <- <-; [|constructor].
  apply Forall_forall. intros o Ho. apply in_map_iff in Ho. destruct Ho as (t & <- & _). reflexivity.
Qed.

Notation ps := (style_parsers (lax c)).

Lemma parsers_reg p : In p ps -> forall args os args', p args = Ok (os, args') -> all_reg os.
Proof.
  unfold style_parsers. change (cl_style_parser (lax c)) with (cl_style_parser c). rewrite no_style_parser. cbn [app]. rewrite !in_app_iff. intros [H|[H|[H|[H|[H|H]]]]].
  - destruct (cl_additional (lax c)) as [f|]; [|destruct H]. destruct H as [<-|[]]. eapply reader_reg; [apply reader_additional|reflexivity].
  - destruct (has _ allow_long); [|destruct H]. destruct H as [<-|[]]. eapply reader_reg; [apply reader_long|reflexivity].
  - destruct (has _ allow_long_disguise) eqn:E; [|destruct H]. destruct H as [<-|[]].
    eapply reader_reg; [apply reader_disguised; exact E|reflexivity].
  - destruct (_ && _); [|destruct H]. destruct H as [<-|[]]. eapply reader_reg; [apply reader_short|reflexivity].
  - destruct (_ && _); [|destruct H]. destruct H as [<-|[]]. eapply reader_reg; [apply reader_slash|reflexivity].
  - destruct H as [<-|[]]. apply terminator_reg.
Qed.

Definition reg1 (r : popt * list str) : Prop := is_reg (fst r).
Definition reg2 (r : list popt * list str) : Prop := all_reg (fst r).
Definition reg3 (r : list popt * list str * bool) : Prop := all_reg (fst (fst r)).

Lemma grab_lax qs key : forall other e m opt, grab_tokens (lax c) qs key e m opt other = grab_tokens (strict c) qs key e m opt other.
Proof.
  induction other as [|tok rest IH]; intros e m opt; cbn [grab_tokens]; auto.
  change (cl_prefix (strict c)) with (cl_prefix (lax c)). change (lookup (strict c)) with (lookup (lax c)).
  destruct (Z.eqb m 0); auto. destruct (with_context _ _ _ _) as [[|]| | |]; cbn [bind]; auto.
  destruct (with_context _ _ _ _) as [[d|]| | |]; cbn [bind]; auto.
Qed.

Lemma finish_strict opt other : is_reg opt ->
  stricter reg1 (finish_option (lax c) ps opt other) (finish_option (strict c) ps opt other).
Proof.
  intros Ho.
  assert (Hsame : forall r, finish_option (lax c) ps opt other = Ok r -> lookup c (po_key opt) <> Ok None \/ po_key opt = [] -> reg1 r).
  { intros [o r] H Hl. apply finish_option_ok in H. unfold reg1. cbn [fst].
    destruct H as [(_ & -> & _)|[(Hk & Hn & _)|(_ & d & ts & _ & _ & -> & _)]]; auto. destruct Hl; [|contradiction].
    contradiction. }
  unfold finish_option in *. destruct (is_empty (po_key opt)) eqn:Ek.
  { apply st_same. intros v Hv. apply Hsame; auto. right. now apply is_empty_true. }
  change (lookup (strict c)) with (lookup c). change (lookup (lax c)) with (lookup c) in *.
  change (cl_prefix (strict c)) with (cl_prefix c). change (cl_prefix (lax c)) with (cl_prefix c) in *.
  cbn [strict lax cl_allow_unregistered] in *.
  destruct (lookup c (po_key opt)) as [[d|]|e|u|]; cbn [with_context bind] in *; try (apply st_same; discriminate).
  - rewrite <- grab_lax.
    apply st_same. intros v Hv. apply Hsame; auto. left. discriminate.
  - apply st_unknown; [reflexivity|]. intros v [= <-]. unfold reg1, is_reg. cbn. discriminate.
Qed.

Lemma finish_all_strict os args : all_reg os ->
  stricter reg2 (finish_all (lax c) ps os args) (finish_all (strict c) ps os args).
Proof.
  induction 1 as [|o os Ho Hos IH].
  - apply st_same. intros v [= <-]. constructor.
  - destruct os as [|o2 os].
    + cbn [finish_all]. eapply stricter_bind; [now apply finish_strict| |].
      * intros v _ Hv. apply st_same. intros w [= <-]. constructor; [exact Hv|constructor].
      * intros v w _ Hv [= <-] Hw. apply Hv. now inversion Hw.
    + rewrite !finish_all_cons. eapply stricter_bind; [now apply finish_strict| |].
      * intros v _ Hv. eapply stricter_bind; [exact IH| |].
        -- intros v' _ Hv'. apply st_same. intros w [= <-]. constructor; auto.
        -- intros v' w _ Hv' [= <-] Hw. apply Hv'. now inversion Hw.
      * intros v w _ Hv Hw Hr. apply bind_Ok in Hw. destruct Hw as (v' & _ & [= <-]). apply Hv. now inversion Hr.
Qed.

Lemma try_strict qs : incl qs ps -> forall args,
  stricter reg3 (try_parsers (lax c) ps qs args) (try_parsers (strict c) ps qs args).
Proof.
  induction qs as [|p qs IH]; intros Hi args; cbn [try_parsers].
  - apply st_same. intros v [= <-]. constructor.
  - assert (Hp : In p ps) by (apply Hi; now left). assert (Hi' : incl qs ps) by (intros q Hq; apply Hi; now right).
    pose proof (parsers_reg p Hp args) as Hr. destruct (p args) as [[os a1]|e|u|]; cbn [bind]; try (apply st_same; discriminate).
    specialize (Hr os a1 eq_refl). eapply stricter_bind; [now apply finish_all_strict| |].
    + intros [fs a2] _ Hv. unfold reg2 in Hv. cbn [fst] in Hv. destruct (Nat.eqb _ _).
      * eapply stricter_bind; [now apply IH| |].
        -- intros [[f2 a3] ok] _ Hv2. apply st_same. intros w [= <-]. apply all_reg_app. split; auto.
        -- intros [[f2 a3] ok] w _ Hv2 [= <-] Hw. apply all_reg_app in Hw. apply Hv2, Hw.
      * apply st_same. intros w [= <-]. exact Hv.
    + intros [fs a2] w _ Hv Hw Hrw. unfold reg2 in Hv. cbn [fst] in Hv. destruct (Nat.eqb _ _).
      * apply bind_Ok in Hw. destruct Hw as ([[f2 a3] ok] & _ & [= <-]). apply all_reg_app in Hrw. apply Hv, Hrw.
      * injection Hw as <-. exact (Hv Hrw).
Qed.

Lemma main_strict fuel : forall args, stricter all_reg (main_loop fuel (lax c) args) (main_loop fuel (strict c) args).
Proof.
  induction fuel as [|fuel IH]; intros args; (destruct args as [|tok rest]; cbn [main_loop]; [apply st_same; intros v [= <-]; constructor|]).
  - apply st_same. discriminate.
  - assert (Hstep : stricter reg2 (main_step (lax c) (tok :: rest)) (main_step (strict c) (tok :: rest))).
    { unfold main_step. rewrite (try_ptw (strict c) _ _ (parsers_lax c) _ _ (parsers_lax c)).
      eapply stricter_bind; [apply try_strict, incl_refl| |].
      - intros [[fs a1] ok] _ Hv. unfold reg3 in Hv. cbn [fst] in Hv. destruct ok; [apply st_same; intros v [= <-]; exact Hv|].
        destruct (at_index a1 0); cbn [bind]; try (apply st_same; discriminate).
        destruct (erase_front a1); cbn [bind]; try (apply st_same; discriminate).
        apply st_same. intros v [= <-]. apply all_reg_app. split; auto. constructor; [reflexivity|constructor].
      - intros [[fs a1] ok] w _ Hv Hw Hr. unfold reg3 in Hv. cbn [fst] in Hv. destruct ok; [injection Hw as <-; exact (Hv Hr)|].
        apply bind_Ok in Hw. destruct Hw as (t & _ & Hw). apply bind_Ok in Hw. destruct Hw as (r & _ & [= <-]).
        apply all_reg_app in Hr. apply Hv, Hr. }
    eapply stricter_bind; [exact Hstep| |].
    + intros v _ Hv. eapply stricter_bind; [apply IH| |].
      * intros v' _ Hv'. apply st_same. intros w [= <-]. apply all_reg_app. split; auto.
      * intros v' w _ Hv' [= <-] Hw. apply all_reg_app in Hw. apply Hv', Hw.
    + intros v w _ Hv Hw Hr. apply bind_Ok in Hw. destruct Hw as (v' & _ & [= <-]). apply all_reg_app in Hr. apply Hv, Hr.
Qed.

(** Arguments are never unregistered. *)
Definition arg_reg (o : popt) : Prop := po_key o = [] -> is_reg o.

Lemma finish_arg opt other o r : is_reg opt -> finish_option (lax c) ps opt other = Ok (o, r) -> arg_reg o.
Proof.
  intros Ho H. apply finish_option_ok in H.
  destruct H as [(_ & -> & _)|[(Hk & _ & _ & -> & _)|(_ & d & ts & _ & _ & -> & _)]]; intros Hk'; auto. contradiction.
Qed.

Lemma finish_all_arg os args fs r : all_reg os -> finish_all (lax c) ps os args = Ok (fs, r) -> Forall arg_reg fs.
Proof.
  intros Hr. revert fs r. induction Hr as [|o os Ho Hos IH]; intros fs r H.
  - injection H as <- _. constructor.
  - destruct os as [|o2 os].
    + cbn [finish_all] in H. apply bind_Ok in H. destruct H as ([o' r'] & H & [= <- _]). constructor; [|constructor].
      cbn [fst]. eapply finish_arg; eauto.
    + rewrite finish_all_cons in H. apply bind_Ok in H. destruct H as ([o' r'] & H & H').
      apply bind_Ok in H'. destruct H' as ([fs2 r2] & H' & [= <- _]). cbn [fst] in *. constructor; [eapply finish_arg; eauto|eauto].
Qed.

Lemma try_arg qs : incl qs ps -> forall args fs r ok, try_parsers (lax c) ps qs args = Ok (fs, r, ok) -> Forall arg_reg fs.
Proof.
  induction qs as [|p qs IH]; intros Hi args fs r ok H; cbn [try_parsers] in H; [injection H as <- _ _; constructor|].
  assert (Hi' : incl qs ps) by (intros q Hq; apply Hi; now right).
  apply bind_Ok in H. destruct H as ([os a1] & Hp & H). apply parsers_reg in Hp; [|apply Hi; now left].
  apply bind_Ok in H. destruct H as ([fs1 a2] & Hf & H). apply finish_all_arg in Hf; auto. destruct (Nat.eqb _ _).
  - apply bind_Ok in H. destruct H as ([[f2 a3] ok'] & H & [= <- _ _]). apply Forall_app. split; eauto.
  - now injection H as <- _ _.
Qed.

Lemma main_arg fuel : forall args os, main_loop fuel (lax c) args = Ok os -> Forall arg_reg os.
Proof.
  induction fuel as [|fuel IH]; intros args os H; (destruct args as [|tok rest]; cbn [main_loop] in H; [injection H as <-; constructor|]); [discriminate|].
  apply bind_Ok in H. destruct H as ([fs r] & Hs & H). apply bind_Ok in H. destruct H as (os' & H & [= <-]).
  apply Forall_app. split; [|eauto]. unfold main_step in Hs.
  apply bind_Ok in Hs. destruct Hs as ([[f a1] ok] & Ht & Hs). apply try_arg in Ht; [|apply incl_refl].
  destruct ok; [now injection Hs as <- _|]. apply bind_Ok in Hs. destruct Hs as (t & _ & Hs).
  apply bind_Ok in Hs. destruct Hs as (r' & _ & [= <- _]). apply Forall_app. split; auto. constructor; [intros _; reflexivity|constructor].
Qed.

Lemma merged_reg c' os rs : merged c' os rs -> Forall arg_reg os -> (all_reg rs <-> all_reg os).
Proof.
  induction 1 as [|o os rs Hk H IH|o taken os rs Hk Hp _ _ H IH]; intros Ha; [reflexivity| |].
  - inversion Ha; subst. unfold all_registered in *. rewrite !Forall_cons_iff, IH by auto. reflexivity.
  - inversion Ha as [|? ? H1 H2]; subst. apply Forall_app in H2. destruct H2 as [H2 H3]. specialize (IH H3).
    assert (Ht : all_reg taken).
    { unfold all_registered. rewrite Forall_forall in *. intros x Hx. apply H2; auto. apply Hp. exact Hx. }
    unfold all_registered in *. rewrite !Forall_cons_iff, Forall_app, IH. unfold absorb, is_reg. cbn [po_unreg]. tauto.
Qed.

Lemma number_reg k os : all_reg (number_positionals k os) <-> all_reg os.
Proof.
  revert k. induction os as [|o os IH]; intros k; cbn [number_positionals]; [reflexivity|].
  unfold all_registered in *. destruct (is_empty (po_key o)); rewrite !Forall_cons_iff, IH; reflexivity.
Qed.

Lemma name_reg p os : forall k rs, name_positionals p k os = Ok rs -> (all_reg rs <-> all_reg os).
Proof.
  induction os as [|o os IH]; intros k rs H; cbn [name_positionals] in H; [injection H as <-; reflexivity|].
  unfold all_registered in *. destruct (Z.eqb _ _).
  - apply bind_Ok in H. destruct H as (r & H & [= <-]). rewrite !Forall_cons_iff, (IH _ _ H). reflexivity.
  - destruct (Z.leb _ _); [discriminate|]. apply bind_Ok in H. destruct H as (n & _ & H). apply bind_Ok in H.
    destruct H as (r & H & [= <-]). rewrite !Forall_cons_iff, (IH _ _ H). reflexivity.
Qed.

Lemma flag_reg os : all_reg (map (set_case_flag c) os) <-> all_reg os.
Proof. unfold all_registered. rewrite Forall_map. split; apply Forall_impl; intros o; auto. Qed.

Lemma run_strict fuel args : stricter all_reg (run fuel (lax c) args) (run fuel (strict c) args).
Proof.
  unfold run. change (cl_positional (lax c)) with (cl_positional c). change (cl_positional (strict c)) with (cl_positional c).
  change (set_case_flag (lax c)) with (set_case_flag c). change (set_case_flag (strict c)) with (set_case_flag c).
  assert (Hend : forall r1 r, main_loop fuel (lax c) args = Ok r1 ->
    (let* r2 := merge_pass (List.length r1) (lax c) r1 in
     let* r4 := match cl_positional c with Some p => name_positionals p 0 (number_positionals 0 r2) | None => Ok (number_positionals 0 r2) end in
     Ok (map (set_case_flag c) r4)) = Ok r -> (all_reg r <-> all_reg r1)).
  { intros r1 r H1 H. apply main_arg in H1. apply bind_Ok in H. destruct H as (r2 & H2 & H).
    apply bind_Ok in H. destruct H as (r4 & H4 & [= <-]). rewrite flag_reg.
    assert (E4 : all_reg r4 <-> all_reg r2).
    { destruct (cl_positional c); [rewrite (name_reg _ _ _ _ H4)|injection H4 as <-]; apply number_reg. }
    rewrite E4. change (merge_pass (List.length r1) (lax c) r1 = Ok r2) in H2. apply merge_ok in H2. now apply (merged_reg (lax c)). }
  eapply stricter_bind; [apply main_strict| |].
  - intros r1 H1 Hr1. 
    assert (E : merge_pass (List.length r1) (strict c) r1 = merge_pass (List.length r1) (lax c) r1).
    { clear. generalize (List.length r1). intros n. revert r1. induction n as [|n IH]; intros os; (destruct os as [|o os]; cbn [merge_pass]; auto).
      change (lookup (strict c)) with (lookup (lax c)). change (cl_prefix (strict c)) with (cl_prefix (lax c)).
      rewrite IH. destruct (is_empty _); auto. destruct (lookup (lax c) (po_key o)) as [[d|]|e|u|]; cbn [bind]; auto.
      2: { destruct (has_option_name _); auto. destruct (at_index _ _); reflexivity. }
      destruct (_ && _); auto. destruct (grab_positional _ _ _) as [g| | |]; cbn [bind]; auto. now rewrite IH. }
    rewrite E. apply st_same. intros v Hv. apply (Hend r1 v H1 Hv). exact Hr1.
  - intros r1 w H1 Hr1 Hw Hr. apply Hr1. apply (Hend r1 w H1 Hw). exact Hr.
Qed.

End Conserve.

(** ** Config files *)

Definition regc (r : option popt * cf_state) : Prop := match fst r with Some o => is_reg o | None => True end.

Lemma get_strict allowed prefixes lines : forall prefix,
  stricter regc (cf_get allowed prefixes true prefix lines) (cf_get allowed prefixes false prefix lines).
Proof.
  induction lines as [|l lines IH]; intros prefix; cbn [cf_get]; [apply st_same; intros v [= <-]; exact I|].
  destruct (is_empty (strip_line l)); [apply IH|]. destruct (is_section (strip_line l)).
  - destruct (section_prefix _); cbn [bind]; try (apply st_same; discriminate). apply IH.
  - destruct (find_char c_eq (strip_line l)); [|apply st_same; discriminate]. rewrite andb_false_r, andb_true_r.
    destruct (allowed_option _ _ _) eqn:E; cbn [negb].
    + apply st_same. intros v [= <-]. reflexivity.
    + apply st_unknown; [reflexivity|]. intros v [= <-]. unfold regc. cbn. discriminate.
Qed.

Lemma copy_strict allowed prefixes fuel : forall st,
  stricter all_reg (cf_copy fuel allowed prefixes true st) (cf_copy fuel allowed prefixes false st).
Proof.
  induction fuel as [|fuel IH]; intros st; cbn [cf_copy]; [apply st_same; discriminate|].
  eapply stricter_bind; [apply get_strict| |].
  - intros [[o|] st'] _ Hv; [|apply st_same; intros v [= <-]; constructor]. eapply stricter_bind; [apply IH| |].
    + intros v' _ Hv'. apply st_same. intros w [= <-]. constructor; auto.
    + intros v' w _ Hv' [= <-] Hw. apply Hv'. now inversion Hw.
  - intros [[o|] st'] w _ Hv Hw Hr; [|exact (Hv I)]. apply bind_Ok in Hw. destruct Hw as (v' & _ & [= <-]). apply Hv. now inversion Hr.
Qed.

Lemma config_strict content ds :
  stricter (fun p => all_reg (pr_options p)) (parse_config_file content ds true) (parse_config_file content ds false).
Proof.
  unfold parse_config_file. destruct (cf_allowed ds []) as [allowed| | |]; cbn [bind]; try (apply st_same; discriminate).
  destruct (cf_add_options [] allowed) as [prefixes| | |]; cbn [bind]; try (apply st_same; discriminate).
  eapply stricter_bind; [apply copy_strict| |].
  - intros v _ Hv. apply st_same. intros w [= <-]. exact Hv.
  - intros v w _ Hv [= <-]. exact Hv.
Qed.

Lemma stricter_cases {A} (reg : A -> Prop) x y : stricter reg x y ->
  (forall r, y = Ok r <-> x = Ok r /\ reg r)
  /\ (forall r, x = Ok r -> ~ reg r -> unknown y)
  /\ ((forall r, x <> Ok r) -> y = x \/ unknown y).
Proof.
  intros [x' H|x' e He H].
  - split; [intros r; split; [intros ->; split; [reflexivity|now apply H]|tauto]|]. split; [|now left].
    intros r -> Hr. destruct (Hr (H r eq_refl)).
  - assert (U : unknown (Throw e : outcome A)) by (exists e; auto). split; [|auto].
    intros r. split; [discriminate|]. intros [-> Hr]. destruct (H r eq_refl Hr).
Qed.
