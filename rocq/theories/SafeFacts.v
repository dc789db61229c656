(** No undefined behaviour in the command line parser. *)

From Coq Require Import List Ascii String NArith ZArith Bool Arith Lia.
From Verif Require Import Base Errors Spec BaseFacts Values OptDesc SpecLookup LookupFacts
  KeyFacts Positional Cmdline SpecCmdline CmdlineFacts RunFacts ParseFacts SoundFacts.
Import ListNotations.

Notation def := defined.

Lemma def_bind A B (x : outcome A) (f : A -> outcome B) :
  def x -> (forall a, x = Ok a -> def (f a)) -> def (bind x f).
Proof. intros Hx Hf u. destruct x; cbn; try discriminate; [now apply Hf|]. intros [= ->]. eapply Hx; eauto. Qed.

Lemma def_context A n t s (x : outcome A) : def x -> def (with_context n t s x).
Proof.
  intros Hx u. destruct x as [a|e|v|]; cbn [with_context]; try discriminate.
  intros [= ->]. eapply Hx; eauto.
Qed.

Lemma def_ok A (a : A) : def (Ok a).
Proof. discriminate. Qed.
Lemma def_throw A e : def (@Throw A e).
Proof. discriminate. Qed.
#[local] Hint Resolve def_bind def_context def_ok def_throw : core.

Definition ascii_desc (c : cmdline) : Prop :=
  Forall (fun d => Forall ascii7 (od_longs d) /\ ascii7 (od_short d)) (cl_desc c).
Definition safe (c : cmdline) (s : str) : Prop :=
  case_sensitive c \/ cl_additional c = None /\ ascii_desc c /\ ascii7 s.

Lemma safe_foldable c s lic sic :
  safe c s -> (lic = true -> has (cl_style c) long_case_insensitive = true) ->
  (sic = true -> has (cl_style c) short_case_insensitive = true) -> foldable (cl_desc c) s lic sic.
Proof.
  intros [[H1 H2]|(_ & Hd & Hs)] Hl Hsc.
  - destruct lic; [rewrite Hl in H1 by auto; discriminate|].
    destruct sic; [rewrite Hsc in H2 by auto; discriminate|]. apply foldable_sensitive.
  - split; auto. eapply Forall_impl; [|exact Hd]. intros d [H1 H2]. split; auto.
Qed.

Lemma lookup_def c s : safe c s -> def (lookup c s).
Proof. intros H u. apply no_ub_find. now apply safe_foldable. Qed.

Lemma weaker_def c s :
  safe c s -> def (find_nothrow (cl_desc c) s false false (has (cl_style c) short_case_insensitive)).
Proof. intros H u. apply no_ub_find. apply safe_foldable; auto. discriminate. Qed.

Lemma safe_part c s s' : safe c s -> (forall x, In x s' -> In x s \/ x = c_dash) -> safe c s'.
Proof.
  intros [H|(H1 & H2 & H3)] Hin; [now left|]. right. split; auto. split; auto.
  unfold ascii7 in *. rewrite Forall_forall in *. intros x Hx. destruct (Hin x Hx) as [Hx'| ->]; auto.
  unfold ascii7_char; cbn; lia.
Qed.

Lemma names_ascii c tok typed :
  cl_additional c = None -> ascii7 tok -> names c tok typed -> ascii7 typed.
Proof.
  intros Ha Ht H. unfold ascii7 in *.
  assert (Hd : ascii7_char c_dash) by (unfold ascii7_char; cbn; lia).
  destruct H; subst; rewrite ?Forall_app in Ht.
  - tauto.
  - tauto.
  - inversion Ht as [|? ? ? Ht2]; subst. inversion Ht2; subst. repeat constructor; auto.
  - inversion Ht as [|? ? ? Ht2]; subst. apply Forall_app in Ht2. destruct Ht2 as [_ Ht2].
    inversion Ht2; subst. repeat constructor; auto.
  - inversion Ht as [|? ? ? Ht2]; subst. inversion Ht2; subst. repeat constructor; auto.
  - inversion Ht; subst; auto.
  - inversion Ht as [|? ? ? Ht2]; subst. apply Forall_app in Ht2. tauto.
  - congruence.
Qed.

Lemma safe_names c tok typed : safe c tok -> names c tok typed -> safe c typed.
Proof.
  intros [H|(H1 & H2 & H3)] Hn; [now left|]. right. split; auto. split; auto.
  eapply names_ascii; eauto.
Qed.

Lemma option_like_dec tok : {option_like tok} + {~ option_like tok}.
Proof.
  destruct tok as [|x s]; [right; intros (y & t & E & _); discriminate|].
  destruct (ascii_dec x c_dash) as [->|H1]; [left; exists c_dash, s; auto|].
  destruct (ascii_dec x c_slash) as [->|H2]; [left; exists c_slash, s; auto|].
  right. intros (y & t & [= <- <-] & [->| ->]); contradiction.
Qed.

(** ** The style parsers *)

Lemma parse_long_def c tok rest : def (parse_long_option c (tok :: rest)).
Proof.
  destruct (parse_long_cases c tok rest)
    as [[E _]|[(n & _ & _ & _ & E)|[(n & v & _ & _ & _ & E)|(n & _ & _ & E)]]]; rewrite E; auto.
Qed.

Lemma short_loop_def c tok adj : forall name acc, safe c name -> safe c adj ->
  def (short_loop c tok name adj acc).
Proof.
  induction adj as [|a adj IH]; intros name acc Hn Ha; cbn [short_loop];
    (apply def_bind; [now apply def_context, weaker_def|]); intros d _.
  - destruct d; auto.
  - destruct d as [d|]; auto. destruct (_ && _); auto. apply IH.
    + apply (safe_part c (a :: adj)); auto. intros x [<-|[<-|[]]]; [now right|left; now left].
    + apply (safe_part c (a :: adj)); auto. intros x Hx. left. now right.
Qed.

Lemma safe_parser_def c p tok rest :
  no_custom c -> In p (style_parsers c) -> safe c tok -> def (p (tok :: rest)).
Proof.
  unfold no_custom, style_parsers. intros Hc Hin Hs. rewrite Hc in Hin. cbn [app] in Hin.
  rewrite !in_app_iff in Hin.
  destruct Hin as [Hin|[Hin|[Hin|[Hin|[Hin|[Hin|[]]]]]]].
  + destruct (cl_additional c) as [f|]; [|destruct Hin]. destruct Hin as [<-|[]].
    unfold handle_additional_parser. cbn. destruct (f tok) as [a b]. destruct (is_empty a); auto.
  + destruct (has _ _); [|destruct Hin]. destruct Hin as [<-|[]]. apply parse_long_def.
  + destruct (has _ _); [|destruct Hin]. destruct Hin as [<-|[]].
    unfold parse_disguised_long_option. cbn [at_index nth_error bind].
    destruct tok as [|c1 [|c2 s]]; auto. destruct (_ || _); auto.
    apply def_bind.
    * apply def_context, lookup_def. apply (safe_part c (c1 :: c2 :: s)); auto.
      intros x Hx. left. destruct (find_char c_eq (c1 :: c2 :: s)) as [n|].
      -- unfold substr_n in Hx. right. rewrite <- (firstn_skipn (n - 1) (c2 :: s)). apply in_or_app. now left.
      -- right. exact Hx.
    * intros [d|] _; auto. cbn [erase_front bind]. apply def_context, parse_long_def.
  + destruct (_ && _); [|destruct Hin]. destruct Hin as [<-|[]].
    unfold parse_short_option. cbn [at_index nth_error bind].
    destruct tok as [|c1 [|c2 s]]; auto. destruct (_ && _); auto.
    apply def_bind; [|intros r _; apply def_ok]. apply short_loop_def.
    * apply (safe_part c (c1 :: c2 :: s)); auto. intros x [<-|[<-|[]]]; left; cbn; auto.
    * apply (safe_part c (c1 :: c2 :: s)); auto. intros x Hx. left. cbn; auto.
  + destruct (_ && _); [|destruct Hin]. destruct Hin as [<-|[]].
    unfold parse_dos_option. cbn [at_index nth_error bind].
    destruct tok as [|c1 [|c2 s]]; try apply def_ok. destruct (char_eqb _ _); apply def_ok.
  + subst p. unfold parse_terminator. cbn [at_index nth_error bind].
    destruct (str_eqb _ _); auto.
Qed.

(** A token that is safe, or that no parser looks at. *)
Definition quiet (c : cmdline) (tok : str) : Prop :=
  safe c tok \/ (cl_additional c = None /\ ~ option_like tok).

Lemma quiet_passed c p tok rest :
  no_custom c -> In p (style_parsers c) -> cl_additional c = None -> ~ option_like tok -> p (tok :: rest) = Ok ([], tok :: rest).
Proof.
  unfold no_custom, style_parsers. intros Hc Hin Ha Hno. rewrite Hc, Ha in Hin. cbn [app] in Hin. rewrite !in_app_iff in Hin.
  assert (Hd : forall x s, tok = x :: s -> char_eqb x c_dash = false /\ char_eqb x c_slash = false).
  { intros x s ->. split; apply char_eqb_neq; intros ->; apply Hno; eexists; eexists; split; auto. }
  destruct Hin as [Hin|[Hin|[Hin|[Hin|[<-|[]]]]]].
  - destruct (has _ _); [|destruct Hin]. destruct Hin as [<-|[]].
    destruct (parse_long_cases c tok rest) as [[E _]|[(n & -> & _)|[(n & v & -> & _)|(n & -> & _)]]]; auto;
      exfalso; apply Hno; eexists; eexists; (split; [reflexivity|now left]).
  - destruct (has _ _); [|destruct Hin]. destruct Hin as [<-|[]].
    unfold parse_disguised_long_option. cbn [at_index nth_error bind]. destruct tok as [|x [|y s]]; auto.
    destruct (Hd _ _ eq_refl) as [-> ->]. cbn [andb orb]. rewrite ?andb_false_r. reflexivity.
  - destruct (_ && _); [|destruct Hin]. destruct Hin as [<-|[]].
    unfold parse_short_option. cbn [at_index nth_error bind]. destruct tok as [|x [|y s]]; auto.
    destruct (Hd _ _ eq_refl) as [-> _]. reflexivity.
  - destruct (_ && _); [|destruct Hin]. destruct Hin as [<-|[]].
    unfold parse_dos_option. cbn [at_index nth_error bind]. destruct tok as [|x [|y s]]; auto.
    destruct (Hd _ _ eq_refl) as [_ ->]. reflexivity.
  - unfold parse_terminator. cbn [at_index nth_error bind]. destruct (str_eqb_spec tok $"--") as [->|_]; auto.
    exfalso. apply Hno. eexists; eexists; (split; [reflexivity|now left]).
Qed.

Lemma style_parser_def c p tok rest :
  no_custom c -> In p (style_parsers c) -> quiet c tok -> def (p (tok :: rest)).
Proof.
  intros Hc Hin [Hs|[Ha Hno]]; [now apply (safe_parser_def c)|]. rewrite (quiet_passed c) by auto. apply def_ok.
Qed.

Lemma quiet_looks c tok :
  no_custom c -> cl_additional c = None -> ~ option_like tok -> looks_like_option (style_parsers c) [tok] = Ok false.
Proof.
  intros Hc Ha Hno. assert (H : forall p, In p (style_parsers c) -> p [tok] = Ok ([], [tok])) by (intros; now apply (quiet_passed c)).
  induction (style_parsers c) as [|p ps IH]; cbn [looks_like_option]; [reflexivity|]. rewrite H by now left. cbn [bind is_empty].
  apply IH. intros; apply H; now right.
Qed.

Lemma init_parsers c :
  no_custom c ->
  exists init, style_parsers c = init ++ [parse_terminator]
    /\ forall p n, In p init -> p [dashdash] = Ok ([], n) -> n = [dashdash].
Proof.
  unfold no_custom. intros Hc. unfold style_parsers. rewrite Hc. cbn [app]. rewrite !app_assoc.
  eexists. split; [reflexivity|]. intros p n Hin. rewrite !in_app_iff in Hin.
  destruct Hin as [[[[Hin|Hin]|Hin]|Hin]|Hin];
    match type of Hin with
    | context [if ?b then _ else _] => destruct b; [|destruct Hin]
    | context [match ?x with Some _ => _ | None => _ end] => destruct x as [f|]; [|destruct Hin]
    end; destruct Hin as [<-|[]].
  - unfold handle_additional_parser. cbn [at_index nth_error bind]. destruct (f dashdash) as [a b].
    destruct (is_empty a); cbn; [congruence|discriminate].
  - cbn. congruence.
  - unfold parse_disguised_long_option. cbn [dashdash at_index nth_error bind].
    change (char_eqb c_dash c_dash) with true. change (char_eqb c_dash c_slash) with false.
    cbn [negb andb orb]. rewrite andb_false_r. congruence.
  - change (parse_short_option c [dashdash]) with (Ok ([] : list popt, [dashdash])). congruence.
  - change (parse_dos_option c [dashdash]) with (Ok ([] : list popt, [dashdash])). congruence.
Qed.

Lemma looks_def c tok :
  no_custom c -> quiet c tok -> def (looks_like_option (style_parsers c) [tok]).
Proof.
  intros Hc Hs. destruct (init_parsers c Hc) as (init & E & Hi). rewrite E.
  assert (Hin : forall p, In p init -> In p (style_parsers c)).
  { intros p Hp. rewrite E. apply in_or_app. now left. }
  clear E. induction init as [|p ps IH]; cbn [app looks_like_option].
  - unfold parse_terminator. cbn [at_index nth_error bind].
    destruct (str_eqb _ _); cbn; auto.
  - apply def_bind; [eapply style_parser_def; eauto; apply Hin; now left|].
    intros [f n] E. destruct (is_empty f) eqn:Ef; auto.
    assert (En : n = [tok]).
    { apply is_empty_true in Ef. subst f.
      destruct (style_parser_ok c p tok [] [] n Hc (Hin p (or_introl eq_refl)) E) as [[_ ->]|[[-> Hr]|(-> & -> & _)]]; auto.
      - destruct (reads_last _ _ _ Hr) as (fl & o & E2 & _). destruct fl; discriminate.
      - apply (Hi p [] (or_introl eq_refl) E). }
    subst n. apply IH; intros; [eapply Hi|apply Hin]; cbn; eauto.
Qed.

Lemma grab_tokens_def c key n : no_custom c -> forall other t opt,
  Forall (quiet c) other -> def (grab_tokens c (style_parsers c) key t n opt other).
Proof.
  intros Hc other. revert n. induction other as [|tok rest IH]; intros n t opt Hs; cbn [grab_tokens]; auto.
  destruct (Z.eqb n 0); auto. inversion Hs; subst.
  apply def_bind; [now apply def_context, looks_def|]. intros f Ef.
  apply def_bind; [|intros; now apply IH]. destruct f; auto.
  assert (safe c tok).
  { match goal with H : quiet c tok |- _ => destruct H as [H|[Ha Hno]]; [exact H|] end. rewrite quiet_looks in Ef by auto. discriminate. }
  apply def_bind; [now apply def_context, lookup_def|]. intros [d|] _; auto.
Qed.

Lemma finish_option_def c opt other :
  no_custom c -> Forall (quiet c) other -> (po_key opt <> [] -> safe c (po_key opt)) ->
  def (finish_option c (style_parsers c) opt other).
Proof.
  intros Hc Ho Hk. unfold finish_option. destruct (is_empty (po_key opt)) eqn:E; auto.
  apply is_empty_false in E. apply def_bind; [apply def_context, lookup_def; auto|].
  intros [d|] _.
  - destruct (Z.leb _ _); auto. destruct (_ && _); auto. now apply grab_tokens_def.
  - destruct (cl_allow_unregistered c); auto.
Qed.

Lemma finish_all_def c os args :
  no_custom c -> Forall (quiet c) args -> Forall (fun o => po_key o <> [] -> safe c (po_key o)) os ->
  def (finish_all c (style_parsers c) os args).
Proof.
  intros Hc Ha Hos. induction Hos as [|o os Ho Hos IH]; [apply def_ok|]. cbn [finish_all].
  destruct os as [|o2 os].
  - apply def_bind; [now apply finish_option_def|]. auto.
  - apply def_bind; [now apply finish_option_def|]. intros r0 _.
    apply def_bind; [apply IH|]. auto.
Qed.

Lemma try_parsers_def c tok rest :
  no_custom c -> quiet c tok -> Forall (quiet c) rest ->
  forall todo, (forall p, In p todo -> In p (style_parsers c)) ->
  def (try_parsers c (style_parsers c) todo (tok :: rest)).
Proof.
  intros Hc Ht Hr. induction todo as [|p todo IH]; intros Hin; cbn [try_parsers]; auto.
  apply def_bind; [apply (style_parser_def c); auto; apply Hin; now left|]. intros [next a1] E.
  assert (Hp : In p (style_parsers c)) by (apply Hin; now left).
  assert (Hin' : forall q, In q todo -> In q (style_parsers c)) by (intros; apply Hin; now right).
  destruct (style_parser_ok c p tok rest next a1 Hc Hp E) as [[-> ->]|[[-> Hrd]|(-> & -> & ->)]].
  - cbn [finish_all bind]. destruct (Nat.eqb _ _); auto. apply def_bind; [apply IH; auto|].
    intros [[f a] o] _. auto.
  - apply def_bind.
    + apply finish_all_def; auto. apply reads_raw in Hrd. eapply Forall_impl; [|exact Hrd].
      intros o (_ & _ & _ & Ho) Hk. destruct Ho as [(Ho & _)|[_ Ho]]; [contradiction|].
      destruct Ht as [Ht|[Ha Hno]]; [eapply safe_names; eauto|].
      exfalso. rewrite (quiet_passed c) in E by auto. injection E as _ E. apply (f_equal (@List.length str)) in E. cbn in E. lia.
    + intros [fin a2] Hf. pose proof (reads_finish_length _ _ _ _ _ _ _ Hrd Hf) as Hl.
      destruct (Nat.eqb_spec (List.length a2) (List.length (tok :: rest))) as [El|_]; auto.
      cbn in El. lia.
  - rewrite finish_all_term. cbn [bind List.length Nat.eqb]. auto.
Qed.

Lemma main_step_def c tok rest :
  no_custom c -> quiet c tok -> Forall (quiet c) rest -> def (main_step c (tok :: rest)).
Proof.
  intros Hc Ht Hr. unfold main_step. apply def_bind; [now apply try_parsers_def|].
  intros [[o a] ok] E. destruct ok; auto.
  apply try_parsers_ok in E; auto. destruct E as [(_ & -> & ->)|[E _]]; [|discriminate]. cbn. auto.
Qed.

Lemma main_loop_def c fuel args :
  no_custom c -> Forall (quiet c) args -> def (main_loop fuel c args).
Proof.
  intros Hc. revert args. induction fuel as [|fuel IH]; intros args Hs; destruct args as [|tok rest];
    cbn [main_loop]; auto; try discriminate.
  inversion Hs; subst. apply def_bind; [now apply main_step_def|]. intros [o a] E.
  apply def_bind; [|auto]. apply IH. cbn [snd]. apply Forall_forall. intros x Hx.
  eapply suffix_In in E; eauto. rewrite Forall_forall in *. auto.
Qed.

(** ** The number of values *)

Definition values_of (os : list popt) : list str := List.concat (map po_value os).

Lemma values_app a b : values_of (a ++ b) = values_of a ++ values_of b.
Proof. unfold values_of. now rewrite map_app, concat_app. Qed.

Lemma step_values c tok rest opts args' :
  step_result c tok rest opts args' ->
  List.length (values_of opts) + List.length args' <= List.length (tok :: rest).
Proof.
  intros [(os & Hr & Hf)|[(_ & -> & ->)|(-> & ->)]].
  - pose proof (reads_raw _ _ _ Hr) as Hraw.
    destruct (reads_last _ _ _ Hr) as (fl & o & -> & _).
    apply finish_all_snoc_ok in Hf. destruct Hf as (fs & f & -> & Hfs & Hf).
    apply Forall_app in Hraw. destruct Hraw as [_ Hraw]. inversion Hraw as [|? ? (_ & _ & Hv & _) _]; subst.
    rewrite values_app, app_length.
    assert (E0 : values_of fs = []).
    { clear -Hfs. remember (map (fun a : char => raw [c_dash; a] [] []) fl) as os eqn:Eos. revert fl Eos.
      induction Hfs as [|x y l l' Hxy _ IH]; intros fl Eos; [reflexivity|].
      destruct fl as [|a fl]; [discriminate|]. injection Eos as -> ->.
      change (y :: l') with ([y] ++ l'). rewrite values_app. rewrite (IH fl eq_refl), app_nil_r.
      apply finish_option_ok in Hxy.
      destruct Hxy as [(Hk & _)|[(_ & _ & _ & -> & _)|(_ & d & ts & _ & E & -> & _)]].
      - discriminate.
      - reflexivity.
      - symmetry in E. apply app_eq_nil in E. destruct E as [-> _]. reflexivity. }
    rewrite E0. unfold values_of. cbn [map List.concat]. rewrite app_nil_r. cbn [List.length].
    apply finish_option_ok in Hf.
    destruct Hf as [(_ & -> & ->)|[(_ & _ & _ & -> & ->)|(_ & d & ts & _ & -> & -> & _)]].
    + lia.
    + cbn. lia.
    + cbn. rewrite !app_length. lia.
  - assert (E : values_of (map term_opt rest) = rest).
    { unfold values_of. rewrite map_map. cbn. induction rest; cbn; congruence. }
    rewrite E. cbn. lia.
  - cbn. lia.
Qed.

Lemma steps_values c args opts :
  steps c args opts -> List.length (values_of opts) <= List.length args.
Proof.
  induction 1 as [|tok rest opts args' more Hs _ IH]; [apply Nat.le_refl|].
  apply step_values in Hs. rewrite values_app, app_length. lia.
Qed.

(** ** The later passes *)

Definition grabbable (o : popt) : Prop := po_key o = [] -> exists v t, po_value o = [v] /\ po_orig o = [t].

Lemma grab_positional_def n o fol :
  Forall grabbable fol ->
  (0 <= n \/ INT_MIN < n - Z.of_nat (List.length (values_of fol)))%Z ->
  def (grab_positional n o fol).
Proof.
  intros H. revert n o. induction H as [|p fol Hp _ IH]; intros n o Hn; cbn [grab_positional]; auto.
  destruct (Z.eqb_spec n 0); auto. destruct (is_empty (po_key p)) eqn:Ek; cbn [negb]; auto.
  apply is_empty_true in Ek. destruct (Z.eqb (po_pos p) INT_MAX); auto.
  destruct (Hp Ek) as (v & t & Ev & Et). rewrite Ev, Et.
  change (p :: fol) with ([p] ++ fol) in Hn. rewrite values_app, app_length in Hn.
  unfold values_of at 1 in Hn. cbn [map List.concat] in Hn. rewrite Ev, app_nil_r in Hn. cbn [List.length] in Hn.
  destruct (Z.eqb_spec n INT_MIN) as [->|Hm].
  - unfold INT_MIN in *. lia.
  - apply IH. lia.
Qed.

Lemma merge_def c fuel res :
  Forall (fun d => sensible d /\ fits d) (cl_desc c) ->
  Forall (fun o => po_key o <> [] -> unambiguous c (po_key o)) res -> Forall grabbable res ->
  (Z.of_nat (List.length (values_of res)) < INT_MAX)%Z ->
  def (merge_pass fuel c res).
Proof.
  intros Hd. revert res. induction fuel as [|fuel IH]; intros res Hu Hg Hv; destruct res as [|o rest];
    cbn [merge_pass]; auto; try discriminate.
  inversion Hu as [|? ? Hou Hru]; subst. inversion Hg as [|? ? _ Hrg]; subst.
  change (o :: rest) with ([o] ++ rest) in Hv. rewrite values_app, app_length in Hv.
  unfold values_of at 1 in Hv. cbn [map List.concat] in Hv. rewrite app_nil_r in Hv.
  assert (Hskip : forall o', def (let* r := merge_pass fuel c rest in Ok (o' :: r))).
  { intros o'. apply def_bind; [apply IH; auto; lia|auto]. }
  destruct (is_empty (po_key o)) eqn:Ek; [apply Hskip|]. apply is_empty_false in Ek.
  destruct (Hou Ek) as [xd Hl]. rewrite Hl. cbn [bind].
  destruct xd as [d|]; [|apply Hskip].
  destruct (_ && _) eqn:Eb; [|apply Hskip]. apply andb_true_iff in Eb. destruct Eb as [Eb1 Eb2].
  apply Z.ltb_lt in Eb1, Eb2.
  rewrite Forall_forall in Hd. destruct (Hd d (lookup_In _ _ _ Hl)) as [[Hs1 Hs2] Hf].
  apply def_bind.
  - apply grab_positional_def; auto. destruct Hf as [Hf|Hf].
    + left. rewrite to_int_small by lia. lia.
    + right. rewrite Hf. unfold to_int, UINT_MAX, INT_MAX, INT_MIN in *.
      rewrite Z.mod_small by lia. destruct (Z.leb_spec (4294967295 - Z.of_nat (List.length (po_value o))) 2147483647); lia.
  - intros [g left] Hgr. apply grab_positional_ok in Hgr. destruct Hgr as (taken & -> & _).
    cbn [fst snd]. apply Forall_app in Hru, Hrg. rewrite values_app, app_length in Hv.
    apply def_bind; [|auto]. apply IH; try tauto. lia.
Qed.

Lemma name_positionals_def p rs : forall k, def (name_positionals p k rs).
Proof.
  induction rs as [|o rs IH]; intros k; cbn [name_positionals]; auto.
  destruct (Z.eqb _ _); [apply def_bind; auto|].
  destruct (Z.leb_spec (max_total_count p) k) as [|Hlt]; auto.
  apply def_bind.
  - unfold name_for_position. destruct (Z.ltb_spec k (max_total_count p)); [|lia].
    destruct (nth_error _ _); auto.
  - intros n _. apply def_bind; auto.
Qed.

Lemma steps_resolve c args opts :
  Forall has_name (cl_desc c) -> Forall sensible (cl_desc c) ->
  (forall d typed key, lookup c typed = Ok (Some d) -> is_key d typed key -> unambiguous c key) ->
  steps c args opts ->
  Forall (fun o => po_key o <> [] -> unambiguous c (po_key o)) opts /\ Forall grabbable opts.
Proof.
  intros Hn Hs Hk H. pose proof (steps_born _ _ _ Hn Hs H) as Hb. clear H.
  induction Hb as [|o os Ho _ [IH1 IH2]]; [split; constructor|].
  destruct Ho as [(E & _ & _ & tok & v & _ & Ev & Ho)|[(E & _ & _ & _ & Hl & _)|(E & _ & _ & tok & typed & d & _ & _ & Hl & _ & Ek & _)]].
  - split; constructor; auto; [intros Ez; contradiction|]. intros _.
    destruct Ho as [[_ ->]|(_ & -> & _)]; eauto.
  - split; constructor; auto; [intros _; eexists; exact Hl|]. intros Ez; contradiction.
  - split; constructor; auto; [|intros Ez; contradiction]. intros _. apply (Hk d typed); auto.
    rewrite Ek. apply is_key_od_key.
Qed.

Lemma defined_lemma c args :
  cl_style_parser c = None ->
  (case_sensitive c
   \/ cl_additional c = None
      /\ Forall (fun d => Forall ascii7 (od_longs d) /\ ascii7 (od_short d)) (cl_desc c)
      /\ Forall (fun tok => option_like tok -> ascii7 tok) args) ->
  Forall has_name (cl_desc c) -> Forall (fun d => sensible d /\ fits d) (cl_desc c) ->
  (forall d typed key, lookup c typed = Ok (Some d) -> is_key d typed key -> unambiguous c key) ->
  (Z.of_nat (List.length args) < INT_MAX)%Z ->
  def (parse c args).
Proof.
  intros Hc Hcase Hn Hd Hk Hlen.
  assert (Hs : Forall (quiet c) args).
  { apply Forall_forall. intros s Hin. destruct Hcase as [H|(H1 & H2 & H3)]; [left; now left|].
    rewrite Forall_forall in H3. destruct (option_like_dec s) as [Ho|Ho]; [left; right; auto|right; auto]. }
  unfold parse, run. apply def_bind; [now apply main_loop_def|]. intros r1 Hm.
  apply main_loop_steps in Hm; auto.
  assert (Hsen : Forall sensible (cl_desc c)) by (eapply Forall_impl; [|exact Hd]; cbv beta; tauto).
  destruct (steps_resolve c args r1 Hn Hsen Hk Hm) as [Hu Hg].
  pose proof (steps_values _ _ _ Hm).
  apply def_bind; [apply merge_def; auto; lia|]. intros r2 _.
  apply def_bind; [|auto]. destruct (cl_positional c); [apply name_positionals_def|auto].
Qed.
