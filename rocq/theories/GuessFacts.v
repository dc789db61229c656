(** Allowing abbreviations changes nothing for names that are known anyway. *)

From Coq Require Import List Ascii String NArith ZArith Bool Arith Lia.
From Verif Require Import Base Errors Spec BaseFacts Values OptDesc SpecLookup LookupFacts Positional Cmdline
  SpecCmdline CmdlineFacts RunFacts ReadFacts SoundFacts SpecReject SpecGrammar GrammarFacts SpecFrame FrameFacts SpecConserve ConserveFacts.
Import ListNotations.

(** ** One option *)

Lemma fold_star lic s p : fold_str lic s = p ++ [c_star] -> exists q, s = q ++ [c_star].
Proof.
  intros H. destruct s as [|c s] using rev_ind; [destruct lic, p; discriminate|]. clear IHs. destruct lic; cbn in H.
  - unfold fold_str in H. rewrite map_app in H. apply app_inj_tail in H. destruct H as [_ H].
    apply lower_ascii_star in H. subst c. eauto.
  - unfold fold_str in H. apply app_inj_tail in H. destruct H as [_ ->]. eauto.
Qed.

Definition no_wild (names : list str) : Prop := Forall (fun l => forall p, l <> p ++ [c_star]) names.

(** The results without and with guessing. *)
Definition widened (r r' : match_result) : Prop := r <> approximate_match /\ (r' = r \/ r = no_match /\ r' = approximate_match).

Lemma match_longs_guess lo lic names : no_wild names -> forall r', r' <> full_match ->
  (match_longs lo true lic names r' = Undef UB_ctype /\ match_longs lo false lic names no_match = Undef UB_ctype)
  \/ exists x x', match_longs lo false lic names no_match = Ok x /\ match_longs lo true lic names r' = Ok x' /\ widened x x'.
Proof.
  induction 1 as [|n names Hn _ IH]; intros r' Hr; cbn [match_longs].
  { right. exists no_match, r'. split; [reflexivity|]. split; [reflexivity|]. split; [discriminate|]. destruct r'; auto. contradiction. }
  destruct (fold_case_cases lic n) as [->| ->]; cbn [bind]; [|now left].
  destruct (is_empty (fold_str lic n)) eqn:Ee; [now apply IH|].
  apply is_empty_false in Ee. destruct (last_char_nonempty Ee) as (t & c & Ht & ->). cbn [bind].
  assert (Hc : char_eqb c c_star = false).
  { apply char_eqb_neq. intros ->. apply fold_star in Ht. destruct Ht as [q Hq]. exact (Hn q Hq). }
  rewrite Hc. rewrite !andb_false_r. cbn [andb].
  destruct (str_eqb (fold_str lic n) lo); [right; exists full_match, full_match; repeat split; auto; discriminate|].
  apply IH. destruct (found_at_0 _ _); auto. discriminate.
Qed.

Lemma od_match_guess d name lic sic : no_wild (od_longs d) ->
  (od_match d name true lic sic = Undef UB_ctype /\ od_match d name false lic sic = Undef UB_ctype)
  \/ exists r r', od_match d name false lic sic = Ok r /\ od_match d name true lic sic = Ok r' /\ widened r r'.
Proof.
  intros H. unfold od_match. destruct (fold_case_cases lic name) as [->| ->]; cbn [bind]; [|now left].
  destruct (match_longs_guess (fold_str lic name) lic (od_longs d) H no_match ltac:(discriminate)) as [[-> ->]|(x & x' & -> & -> & Hx & Hw)];
    cbn [bind]; [now left|].
  assert (E : x' = full_match <-> x = full_match) by (destruct Hw as [->|[-> ->]]; [reflexivity|split; discriminate]).
  assert (W : forall y, widened y y \/ y = approximate_match) by (intros y; destruct y; auto; left; split; [discriminate|auto|discriminate|auto]).
  destruct (fold_case_cases sic (od_short d)) as [->| ->]; cbn [bind].
  - destruct (str_eqb _ _); [right|right; exists x, x'; destruct x, x'; try (repeat split; auto; fail); try (now destruct E; firstorder discriminate)].
    exists full_match, full_match. destruct x, x'; repeat split; auto; discriminate.
  - destruct Hw as [->|[-> ->]]; [|now left]. destruct x; [now left| |contradiction]. right. exists full_match, full_match. repeat split; auto; discriminate.
Qed.

(** ** Lookup *)

Lemma find_guess ds name lic sic : no_wildcards ds ->
  find_nothrow ds name false lic sic = Ok None
  \/ find_nothrow ds name true lic sic = find_nothrow ds name false lic sic.
Proof.
  intros Hw.
  assert (U : forall g, Exists (fun d => od_match d name g lic sic = Undef UB_ctype) ds -> find_nothrow ds name g lic sic = Undef UB_ctype).
  { intros g H. destruct (find_nothrow_cases name g lic sic ds) as [[rs Hrs]|[E _]]; auto. exfalso.
    induction Hrs as [|d r ds rs Hr _ IH]; [inversion H|]. inversion Hw; subst. inversion H; subst; [congruence|auto]. }
  assert (D : Exists (fun d => od_match d name true lic sic = Undef UB_ctype /\ od_match d name false lic sic = Undef UB_ctype) ds
    \/ exists rs rs', Forall2 (fun d r => od_match d name false lic sic = Ok r) ds rs
        /\ Forall2 (fun d r => od_match d name true lic sic = Ok r) ds rs'
        /\ classify ds rs is_full = classify ds rs' is_full /\ classify ds rs is_approx = []).
  { clear U. induction Hw as [|d ds Hd _ IH]; [right; exists [], []; auto|].
    destruct (od_match_guess d name lic sic Hd) as [H|(r & r' & E & E' & Hr & Hr')]; [left; now left|].
    destruct IH as [IH|(rs & rs' & H1 & H2 & H3 & H4)]; [left; now right|].
    right. exists (r :: rs), (r' :: rs'). split; [constructor; auto|]. split; [constructor; auto|]. cbn [classify].
    rewrite H3, H4. destruct Hr' as [->|[-> ->]]; split; auto. destruct r; auto. contradiction. }
  destruct D as [D|(rs & rs' & H1 & H2 & H3 & H4)].
  - right. rewrite (U true), (U false); auto; eapply Exists_impl; [|exact D|..|exact D]; cbn; tauto.
  - rewrite (@find_nothrow_eq name true lic sic ds rs' H2), (@find_nothrow_eq name false lic sic ds rs H1), H3, H4.
    destruct (classify ds rs' is_full) as [|d1 [|d2 fs]]; auto.
Qed.

Lemma fold_case_ascii ci s t : fold_case ci s = Ok t -> ci = true -> ascii7 s.
Proof.
  intros H ->. destruct (ascii7_dec s) as [|Hn]; auto. unfold fold_case in H. rewrite mapM_tolower_not_ascii in H by auto. discriminate.
Qed.

Lemma match_longs_fold lo g lic names : forall r x, match_longs lo g lic names r = Ok x ->
  x = full_match \/ (lic = true -> Forall ascii7 names).
Proof.
  induction names as [|n names IH]; intros r x H; cbn [match_longs] in H; [right; constructor|].
  apply bind_Ok in H. destruct H as (t & Ht & H). pose proof (fold_case_ascii _ _ _ Ht) as Ha.
  assert (K : forall r', match_longs lo g lic names r' = Ok x -> x = full_match \/ (lic = true -> Forall ascii7 (n :: names))).
  { intros r' H'. destruct (IH _ _ H') as [->|Hl]; [now left|]. right. intros E. constructor; auto. }
  destruct (is_empty t); [eauto|]. apply bind_Ok in H. destruct H as (l & _ & H).
  destruct (str_eqb _ _); [injection H as <-; now left|]. eauto.
Qed.

Lemma od_match_decided d name g lic sic r : od_match d name g lic sic = Ok r ->
  r = full_match \/ ((lic = true -> ascii7 name) /\ foldable_option d lic sic /\ match_spec d name g lic sic r).
Proof.
  intros H. assert (K : r = full_match \/ ((lic = true -> ascii7 name) /\ foldable_option d lic sic)).
  { unfold od_match in H. apply bind_Ok in H. destruct H as (lo & Hlo & H). apply bind_Ok in H. destruct H as (x & Hx & H).
    apply match_longs_fold in Hx. destruct Hx as [->|Hx]; [injection H as <-; now left|].
    assert (K : forall y, (let* s := fold_case sic (od_short d) in if str_eqb s lo then Ok full_match else Ok y) = Ok r ->
      r = full_match \/ ((lic = true -> ascii7 name) /\ foldable_option d lic sic)).
    { intros y Hy. apply bind_Ok in Hy. destruct Hy as (s & Hs & _). right. split; [eapply fold_case_ascii; eauto|]. split; auto.
      eapply fold_case_ascii; eauto. }
    destruct x; [now apply (K no_match)|injection H as <-; now left|now apply (K approximate_match)]. }
  destruct K as [->|[K1 K2]]; [now left|]. right. split; auto. split; auto.
  destruct (match_characterised_lemma g K1 K2) as (r' & Hr' & Hm). congruence.
Qed.

Lemma find_full_some ds name g lic sic d : In d ds -> full d name lic sic -> find_nothrow ds name g lic sic <> Ok None.
Proof.
  intros Hd Hf. destruct (find_nothrow_cases name g lic sic ds) as [[rs Hrs]|[-> _]]; [|discriminate].
  rewrite (@find_nothrow_eq name g lic sic ds rs Hrs).
  assert (Hm : od_match d name g lic sic = Ok full_match).
  { clear - Hrs Hd Hf. induction Hrs as [|d0 r ds rs Hr _ IH]; [destruct Hd|]. destruct Hd as [->|Hd]; [|auto].
    rewrite Hr. f_equal. destruct (od_match_decided _ _ _ _ _ _ Hr) as [->|(_ & _ & Hm)]; auto. destruct r; cbn in Hm; tauto. }
  pose proof (classify_full_In _ _ _ _ _ _ _ Hrs Hd Hm) as H. unfold find_result.
  destruct (classify ds rs is_full) as [|d1 [|d2 fs]]; [contradiction|discriminate|discriminate].
Qed.

Lemma find_none_all ds name g lic sic : find_nothrow ds name g lic sic = Ok None -> Forall (fun d => od_match d name g lic sic = Ok no_match) ds.
Proof.
  intros H. destruct (find_nothrow_cases name g lic sic ds) as [[rs Hrs]|[E _]]; [|congruence].
  rewrite (@find_nothrow_eq name g lic sic ds rs Hrs) in H.
  assert (classify ds rs is_full = [] /\ classify ds rs is_approx = []) as [H1 H2].
  { unfold find_result in H. destruct (classify ds rs is_full) as [|d1 [|d2 fs]]; [|discriminate|discriminate].
    destruct (classify ds rs is_approx) as [|d1 [|d2 fs]]; [auto|discriminate|discriminate]. }
  clear H. induction Hrs as [|d r ds rs Hr _ IH]; [constructor|]. cbn [classify] in *.
  apply app_eq_nil in H1, H2. constructor; [|tauto]. rewrite Hr. destruct r; auto; [destruct H1|destruct H2]; discriminate.
Qed.

Lemma find_none_guess ds name lic sic : (forall d, In d ds -> approximate d name true lic -> full d name lic sic) ->
  find_nothrow ds name false lic sic = Ok None -> find_nothrow ds name true lic sic = Ok None.
Proof.
  intros H E. apply find_none_all in E. apply find_all_no_match. rewrite Forall_forall in *. intros d Hd. specialize (E d Hd).
  apply od_match_decided in E. destruct E as [E|(H1 & H2 & H3 & H4)]; [discriminate|].
  destruct (match_characterised_lemma true H1 H2) as (r & -> & Hm). destruct r; auto; exfalso; cbn in Hm; [tauto|].
  apply H3, (H d Hd). tauto.
Qed.

(** ** Styles *)

Lemma has_off s f : Z.land f allow_guessing = 0%Z -> has (Z.ldiff s allow_guessing) f = has s f.
Proof.
  intros H. unfold has. f_equal. f_equal. apply Z.bits_inj'. intros n Hn. rewrite !Z.land_spec, Z.ldiff_spec.
  apply (f_equal (fun z => Z.testbit z n)) in H. rewrite Z.land_spec, Z.bits_0 in H.
  destruct (Z.testbit f n), (Z.testbit allow_guessing n), (Z.testbit s n); auto; discriminate.
Qed.

Lemma has_on s f : Z.land f allow_guessing = 0%Z -> has (Z.lor s allow_guessing) f = has s f.
Proof.
  intros H. unfold has. f_equal. f_equal. apply Z.bits_inj'. intros n Hn. rewrite !Z.land_spec, Z.lor_spec.
  apply (f_equal (fun z => Z.testbit z n)) in H. rewrite Z.land_spec, Z.bits_0 in H.
  destruct (Z.testbit f n), (Z.testbit allow_guessing n), (Z.testbit s n); auto; discriminate.
Qed.

Lemma guess_off s : has (Z.ldiff s allow_guessing) allow_guessing = false.
Proof.
  unfold has. replace (Z.land _ _) with 0%Z; auto. symmetry. apply Z.bits_inj'. intros n Hn.
  rewrite Z.land_spec, Z.ldiff_spec, Z.bits_0. destruct (Z.testbit allow_guessing n), (Z.testbit s n); auto.
Qed.

Lemma guess_on s : has (Z.lor s allow_guessing) allow_guessing = true.
Proof.
  unfold has. replace (Z.land _ _) with allow_guessing; auto. symmetry. apply Z.bits_inj'. intros n Hn.
  rewrite Z.land_spec, Z.lor_spec. destruct (Z.testbit allow_guessing n), (Z.testbit s n); auto.
Qed.

(** ** The parser *)

Section Guess.
Variable c : cmdline.
Hypothesis no_style_parser : cl_style_parser c = None.
Hypothesis registered_only : cl_allow_unregistered c = false.
Hypothesis no_disguise : has (cl_style c) allow_long_disguise = false.
Hypothesis plain : no_wildcards (cl_desc c).
Hypothesis shorts : forall d, In d (cl_desc c) -> od_short d <> [] -> no_abbreviation c (od_short d).

Notation off := (exact_names c).
Notation on := (abbreviated_names c).

Lemma off_flag f : Z.land f allow_guessing = 0%Z -> has (cl_style off) f = has (cl_style c) f.
Proof. apply has_off. Qed.
Lemma on_flag f : Z.land f allow_guessing = 0%Z -> has (cl_style on) f = has (cl_style off) f.
Proof. intros H. cbn [exact_names abbreviated_names with_style cl_style]. rewrite has_on, has_off; auto. Qed.

Lemma prefix_on : cl_prefix on = cl_prefix off.
Proof. unfold cl_prefix. now rewrite !on_flag by reflexivity. Qed.

Lemma lookup_off name : lookup off name =
  find_nothrow (cl_desc c) name false (has (cl_style c) long_case_insensitive) (has (cl_style c) short_case_insensitive).
Proof.
  unfold lookup. rewrite (off_flag long_case_insensitive), (off_flag short_case_insensitive) by reflexivity.
  cbn [exact_names with_style cl_style cl_desc]. now rewrite guess_off.
Qed.
Lemma lookup_on name : lookup on name =
  find_nothrow (cl_desc c) name true (has (cl_style c) long_case_insensitive) (has (cl_style c) short_case_insensitive).
Proof.
  unfold lookup. rewrite (on_flag long_case_insensitive), (on_flag short_case_insensitive), !off_flag by reflexivity.
  cbn [abbreviated_names with_style cl_style cl_desc]. now rewrite guess_on.
Qed.

Lemma lookup_known name : lookup off name <> Ok None -> lookup on name = lookup off name.
Proof. rewrite lookup_on, lookup_off. intros H. destruct (find_guess _ name (has (cl_style c) long_case_insensitive) (has (cl_style c) short_case_insensitive) plain); auto. contradiction. Qed.

Lemma short_on tok : forall adj name res, short_loop on tok name adj res = short_loop off tok name adj res.
Proof.
  induction adj as [|a adj IH]; intros name res; cbn [short_loop]; rewrite prefix_on, !on_flag by reflexivity;
    change (cl_desc on) with (cl_desc off); auto.
  destruct (with_context _ _ _ _) as [[d|]| | |]; cbn [bind]; auto. now rewrite IH.
Qed.

Notation ps := (style_parsers off).

Lemma parsers_on : Forall2 same_parser (style_parsers on) ps.
Proof.
  unfold style_parsers. change (cl_additional on) with (cl_additional off). change (cl_style_parser on) with (cl_style_parser off).
  rewrite !on_flag by reflexivity. rewrite (off_flag allow_long_disguise) by reflexivity. rewrite no_disguise.
  assert (R : forall l, Forall2 same_parser l l).
  { induction l; [constructor|]. apply Forall2_cons; [intros args; reflexivity|assumption]. }
  repeat apply Forall2_app; try apply R.
  - destruct (has (cl_style off) allow_long); [|apply R]. apply Forall2_cons; [|constructor]. intros args.
    unfold parse_long_option. now rewrite prefix_on.
  - destruct (_ && _); [|apply R]. apply Forall2_cons; [|constructor]. intros args. unfold parse_short_option.
    destruct (at_index args 0) as [[|c1 [|c2 adj]]| | |]; cbn [bind]; auto. now rewrite short_on.
Qed.

Lemma reader_shrinks p R N : reader p R N -> p [] = Undef UB_index ->
  forall args os args', p args = Ok (os, args') -> exists pre, args = pre ++ args'.
Proof.
  intros [Hp _] E args os args' H. destruct args as [|tok rest]; [congruence|].
  apply Hp in H. destruct H as [(ms & HR & [= -> ->])|[_ [= -> ->]]]; [exists [tok]|exists []]; reflexivity.
Qed.

Lemma parsers_shrink p : In p ps -> forall args os args', p args = Ok (os, args') -> exists pre, args = pre ++ args'.
Proof.
  unfold style_parsers. change (cl_style_parser off) with (cl_style_parser c). rewrite no_style_parser. cbn [app].
  rewrite !in_app_iff. intros [H|[H|[H|[H|[H|H]]]]].
  - destruct (cl_additional off) as [f|]; [|destruct H]. destruct H as [<-|[]]. eapply reader_shrinks; [apply reader_additional|reflexivity].
  - destruct (has _ allow_long); [|destruct H]. destruct H as [<-|[]]. eapply reader_shrinks; [apply reader_long|reflexivity].
  - destruct (has (cl_style off) allow_long_disguise) eqn:E; [|destruct H]. destruct H as [<-|[]].
    eapply reader_shrinks; [apply reader_disguised; exact E|reflexivity].
  - destruct (_ && _); [|destruct H]. destruct H as [<-|[]]. eapply reader_shrinks; [apply reader_short|reflexivity].
  - destruct (_ && _); [|destruct H]. destruct H as [<-|[]]. eapply reader_shrinks; [apply reader_slash|reflexivity].
  - destruct H as [<-|[]]. intros args os args' H. unfold parse_terminator in H. destruct args as [|tok rest]; [discriminate|].
    cbn [at_index nth_error bind tl] in H. destruct (str_eqb tok $"--"); injection H as <- <-;
      [exists (tok :: rest); now rewrite app_nil_r|exists []; reflexivity].
Qed.

Definition calm (tok : str) : Prop := option_like c tok -> lookup off tok = Ok None -> lookup on tok = Ok None.

Lemma calm_no_abbreviation tok : (option_like c tok -> no_abbreviation c tok) -> calm tok.
Proof. intros H Hl. rewrite lookup_off, lookup_on. apply find_none_guess. apply H. exact Hl. Qed.

Lemma grab_on key other : Forall calm other -> forall e m opt, grab_tokens on ps key e m opt other = grab_tokens off ps key e m opt other.
Proof.
  induction 1 as [|tok rest Ht _ IH]; intros e m opt; cbn [grab_tokens]; auto.
  rewrite prefix_on. destruct (Z.eqb m 0); auto.
  destruct (with_context key e (cl_prefix off) (looks_like_option ps [tok])) as [b|x|u|] eqn:Eb; cbn [bind]; auto.
  destruct b; cbn [bind]; [|apply IH]. apply with_context_Ok in Eb. apply looks_ps in Eb; [|exact no_style_parser].
  destruct Eb as [[_ (ms & Hs)]|[E _]]; [|discriminate]. apply stands_like in Hs.
  assert (E : lookup on tok = lookup off tok).
  { destruct (lookup off tok) as [[d|]| | |] eqn:El; try (rewrite <- El; apply lookup_known; rewrite El; discriminate).
    apply Ht; auto. }
  rewrite E. destruct (with_context key tok (cl_prefix off) (lookup off tok)) as [[d|]| | |]; cbn [bind]; auto.
Qed.

(** The outcome [y] of the parser without abbreviations, against the other one. *)
Definition fewer {A} (x y : outcome A) : Prop := y = x \/ unknown y.

Lemma fewer_bind {A B} (x y : outcome A) (f g : A -> outcome B) : fewer x y -> (forall v, y = Ok v -> fewer (f v) (g v)) -> fewer (bind x f) (bind y g).
Proof.
  intros [->|(e & -> & He)] H.
  - destruct x; cbn [bind]; auto; left; reflexivity.
  - right. exists e. auto.
Qed.

Definition known_key (k : str) : Prop := k = [] \/ lookup on k = lookup off k.

Lemma key_known d name : lookup off name = Ok (Some d) -> known_key (od_key d name).
Proof.
  intros H. pose proof (lookup_In _ _ _ H) as Hin. change (cl_desc off) with (cl_desc c) in Hin. unfold known_key, od_key.
  destruct (od_longs d) as [|first rest] eqn:El.
  - destruct (od_short d) as [|x s] eqn:Es; [now left|right]. rewrite <- Es.
    destruct (lookup off (od_short d)) as [[d'|]| | |] eqn:E; try (rewrite <- E; apply lookup_known; rewrite E; discriminate).
    rewrite lookup_off in E. rewrite lookup_on. apply find_none_guess; auto. apply (shorts d Hin). rewrite Es. discriminate.
  - destruct (find_char c_star first) eqn:Ef; [right; apply lookup_known; rewrite H; discriminate|].
    destruct first as [|x f]; [now left|]. right. apply lookup_known. rewrite lookup_off. apply (find_full_some _ _ _ _ _ d Hin).
    left. exists (x :: f). split; [rewrite El; now left|]. split; [discriminate|]. now apply same_name_eq.
Qed.

Lemma finish_on opt other : Forall calm other ->
  fewer (finish_option on ps opt other) (finish_option off ps opt other)
  /\ forall o other', finish_option off ps opt other = Ok (o, other') -> known_key (po_key o) /\ exists pre, other = pre ++ other'.
Proof.
  intros Ho. split.
  - unfold finish_option. destruct (is_empty (po_key opt)) eqn:Ek; [now left|]. rewrite prefix_on.
    change (cl_allow_unregistered off) with (cl_allow_unregistered c). rewrite registered_only.
    destruct (lookup off (po_key opt)) as [[d|]|e|u|] eqn:El.
    2: { right. cbn [with_context bind]. eexists. split; [reflexivity|]. reflexivity. }
    all: rewrite (lookup_known (po_key opt)) by (rewrite El; discriminate); rewrite El; left; auto.
    cbn [with_context bind]. destruct (Z.leb _ _); auto. destruct (_ && _); auto. symmetry. now apply grab_on.
  - intros o other' H. apply finish_option_ok in H.
    destruct H as [(E & -> & ->)|[(_ & _ & Hu & _)|(Hne & d' & ts & Hl & -> & -> & _)]].
    + split; [now left|now exists []].
    + cbn in Hu. congruence.
    + split; [|now exists ts]. cbn. now apply key_known.
Qed.

Notation known os := (Forall (fun o => known_key (po_key o)) os).

Lemma finish_all_on os : forall args, Forall calm args ->
  fewer (finish_all on ps os args) (finish_all off ps os args)
  /\ forall fs args', finish_all off ps os args = Ok (fs, args') -> known fs /\ exists pre, args = pre ++ args'.
Proof.
  induction os as [|o os IH]; intros args Ha.
  - split; [now left|]. intros fs args' [= <- <-]. split; [constructor|now exists []].
  - destruct os as [|o2 os].
    + cbn [finish_all]. destruct (finish_on o args Ha) as [E Hr]. split.
      * apply fewer_bind; [exact E|]. intros v _. now left.
      * intros fs args' H. apply bind_Ok in H. destruct H as ((o' & r) & H & [= <- <-]). destruct (Hr _ _ H) as [Hk Hp]. split; auto.
    + rewrite !finish_all_cons. destruct (finish_on o [] (Forall_nil _)) as [E Hr]. destruct (IH args Ha) as [E2 Hr2]. split.
      * apply fewer_bind; [exact E|]. intros v _. apply fewer_bind; [exact E2|]. intros v' _. now left.
      * intros fs args' H. apply bind_Ok in H. destruct H as ((o' & r) & H & H').
        apply bind_Ok in H'. destruct H' as ((fs2 & r2) & H2 & [= <- <-]). destruct (Hr _ _ H) as [Hk _]. destruct (Hr2 _ _ H2) as [Hk2 Hp].
        split; auto.
Qed.

Lemma try_on qs : incl qs ps -> forall args, Forall calm args ->
  fewer (try_parsers on ps qs args) (try_parsers off ps qs args)
  /\ forall fs args' ok, try_parsers off ps qs args = Ok (fs, args', ok) -> known fs /\ exists pre, args = pre ++ args'.
Proof.
  induction qs as [|p qs IH]; intros Hi args Ha; cbn [try_parsers].
  - split; [now left|]. intros fs args' ok [= <- <- <-]. split; [constructor|now exists []].
  - assert (Hi' : incl qs ps) by (intros q Hq; apply Hi; now right).
    pose proof (parsers_shrink p (Hi p (or_introl eq_refl)) args) as Hr.
    destruct (p args) as [[os a1]|e|u|]; cbn [bind]; try (split; [now left|discriminate]).
    destruct (Hr os a1 eq_refl) as [pre E]. assert (Ha1 : Forall calm a1) by (rewrite E in Ha; apply Forall_app in Ha; tauto).
    destruct (finish_all_on os a1 Ha1) as [Ef Hf]. split.
    + apply fewer_bind; [exact Ef|]. intros [fs a2] H2. destruct (Hf fs a2 H2) as [_ [pre2 E2]].
      destruct (Nat.eqb _ _); [|now left]. apply fewer_bind; [|intros v _; now left]. apply IH; auto.
      rewrite E2 in Ha1. apply Forall_app in Ha1. tauto.
    + intros fs' args' ok H. apply bind_Ok in H. destruct H as ((fs & a2) & H2 & H). destruct (Hf fs a2 H2) as [Hk [pre2 E2]].
      destruct (Nat.eqb _ _).
      * apply bind_Ok in H. destruct H as (((f2 & a3) & o3) & H & [= <- <- <-]).
        assert (Ha2 : Forall calm a2) by (rewrite E2 in Ha1; apply Forall_app in Ha1; tauto).
        destruct (IH Hi' a2 Ha2) as [_ Ht]. destruct (Ht _ _ _ H) as [Hk3 [pre3 E3]]. split; [apply Forall_app; auto|].
        exists (pre ++ pre2 ++ pre3). now rewrite E, E2, E3, <- !app_assoc.
      * injection H as <- <- <-. split; auto. exists (pre ++ pre2). now rewrite E, E2, <- app_assoc.
Qed.

Lemma step_on args : Forall calm args ->
  fewer (main_step on args) (main_step off args)
  /\ forall fs args', main_step off args = Ok (fs, args') -> known fs /\ exists pre, args = pre ++ args'.
Proof.
  intros Ha. unfold main_step. rewrite (try_ptw on _ _ parsers_on _ _ parsers_on).
  destruct (try_on ps (incl_refl _) args Ha) as [Et Ht]. split.
  - apply fewer_bind; [exact Et|]. intros [[fs a1] ok] _. now left.
  - intros fs args' H. apply bind_Ok in H. destruct H as ([[f a1] ok] & H1 & H). destruct (Ht f a1 ok H1) as [Hk [pre E]].
    destruct ok; [injection H as <- <-; split; eauto|]. destruct a1 as [|t a1]; [discriminate|].
    cbn [at_index nth_error bind erase_front] in H. injection H as <- <-. split.
    + apply Forall_app. split; auto. constructor; [now left|constructor].
    + exists (pre ++ [t]). now rewrite <- app_assoc.
Qed.

Lemma main_on fuel : forall args, Forall calm args ->
  fewer (main_loop fuel on args) (main_loop fuel off args) /\ forall os, main_loop fuel off args = Ok os -> known os.
Proof.
  induction fuel as [|fuel IH]; intros args Ha; (destruct args as [|tok rest]; cbn [main_loop]; [split; [now left|intros os [= <-]; constructor]|]).
  - split; [now left|discriminate].
  - destruct (step_on _ Ha) as [Es Hs]. split.
    + apply fewer_bind; [exact Es|]. intros [fs a1] H1. destruct (Hs _ _ H1) as [_ [pre E]]. cbn [fst snd].
      apply fewer_bind; [|intros v _; now left]. apply IH. rewrite E in Ha. apply Forall_app in Ha. tauto.
    + intros os H. apply bind_Ok in H. destruct H as ([fs a1] & H1 & H). destruct (Hs _ _ H1) as [Hk [pre E]].
      apply bind_Ok in H. destruct H as (os' & H & [= <-]). apply Forall_app. split; auto. cbn [snd] in H.
      rewrite E in Ha. apply Forall_app in Ha. destruct (IH a1 (proj2 Ha)) as [_ K]. exact (K os' H).
Qed.

Lemma merge_on fuel : forall os, known os -> merge_pass fuel on os = merge_pass fuel off os.
Proof.
  induction fuel as [|fuel IH]; intros os Ho; (destruct os as [|o os]; cbn [merge_pass]; auto).
  inversion Ho as [|? ? Hk Ho']; subst. destruct (is_empty (po_key o)) eqn:Ek; [now rewrite IH|].
  destruct Hk as [Hk|Hk]; [rewrite Hk in Ek; discriminate|]. rewrite Hk, prefix_on.
  destruct (lookup off (po_key o)) as [xd|e|u|]; cbn [bind]; auto.
  2: { destruct (has_option_name _); auto. destruct (at_index _ _); reflexivity. }
  destruct xd as [d'|]; [|now rewrite IH].
  destruct (_ && _); [|now rewrite IH].
  destruct (grab_positional _ o os) as [[o' fol]|e|u|] eqn:Eg; cbn [bind]; auto.
  apply grab_positional_ok in Eg. destruct Eg as (taken & -> & _). apply Forall_app in Ho'. cbn [snd]. rewrite IH; [reflexivity|tauto].
Qed.

Lemma run_on fuel args : Forall calm args -> fewer (run fuel on args) (run fuel off args).
Proof.
  intros Ha. unfold run. destruct (main_on fuel args Ha) as [Em Hm]. apply fewer_bind; [exact Em|]. intros r1 H1. left.
  rewrite (merge_on _ _ (Hm r1 H1)). change (cl_positional on) with (cl_positional off).
  assert (E : forall o, set_case_flag on o = set_case_flag off o).
  { intros o. unfold set_case_flag. rewrite on_flag; [reflexivity|]. destruct (po_key o) as [|x [|y [|z k]]]; try reflexivity.
    destruct (negb _); reflexivity. }
  destruct (merge_pass _ off r1); cbn [bind]; auto. destruct (match cl_positional off with Some _ => _ | None => _ end); cbn [bind]; auto.
  f_equal. apply map_ext. intros. symmetry. apply E.
Qed.
End Guess.
