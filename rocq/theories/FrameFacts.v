(** A new option does not change how command lines are parsed that do not mention it. *)

From Coq Require Import List Ascii String NArith ZArith Bool Arith Lia.
From Verif Require Import Base Errors Spec BaseFacts Values OptDesc SpecLookup LookupFacts Positional Cmdline
  SpecCmdline CmdlineFacts RunFacts ReadFacts SoundFacts SpecReject SpecGrammar GrammarFacts Parsers ConfigFile SpecConfig ConfigFacts
  VarMap SpecStore StoreFacts SpecFrame.
Import ListNotations.

Lemma classify_app ds1 ds2 rs1 rs2 want : List.length ds1 = List.length rs1 ->
  classify (ds1 ++ ds2) (rs1 ++ rs2) want = classify ds1 rs1 want ++ classify ds2 rs2 want.
Proof.
  revert rs1. induction ds1 as [|d ds1 IH]; intros [|r rs1]; cbn [List.length]; intros E; try discriminate; auto.
  injection E as E. cbn [app classify]. rewrite IH by auto. apply app_assoc.
Qed.

Lemma F2_len A B (P : A -> B -> Prop) l l' : Forall2 P l l' -> List.length l = List.length l'.
Proof. induction 1; cbn; congruence. Qed.

Lemma classify_full_In name g l s ds rs d0 : Forall2 (fun d r => od_match d name g l s = Ok r) ds rs -> In d0 ds ->
  od_match d0 name g l s = Ok full_match -> classify ds rs is_full <> [].
Proof.
  induction 1 as [|d r ds rs Hr Hrs IH]; intros Hin Hd; [contradiction|]. cbn [classify]. destruct Hin as [->|Hin].
  - rewrite Hr in Hd. injection Hd as ->. discriminate.
  - intros E. apply app_eq_nil in E. now apply IH.
Qed.

Lemma find_skip name g l s ds1 d ds2 : foldable_option d l s -> passes_over (ds1 ++ ds2) d name g l s ->
  find_nothrow (ds1 ++ d :: ds2) name g l s = find_nothrow (ds1 ++ ds2) name g l s.
Proof.
  intros Hf (Ha & Hn & Hx). destruct (match_characterised_lemma g Ha Hf) as (r & Hr & Hm).
  destruct (find_nothrow_cases name g l s (ds1 ++ ds2)) as [[rs Hrs]|[E Hex]].
  - apply Forall2_app_inv_l in Hrs. destruct Hrs as (rs1 & rs2 & H1 & H2 & ->).
    rewrite (@find_nothrow_eq name g l s (ds1 ++ ds2) (rs1 ++ rs2)) by (now apply Forall2_app).
    rewrite (@find_nothrow_eq name g l s (ds1 ++ d :: ds2) (rs1 ++ r :: rs2)) by (apply Forall2_app; auto).
    rewrite !classify_app by (eapply F2_len; eauto). cbn [classify].
    destruct r; cbn [match_spec] in Hm; [reflexivity|tauto|]. cbn [is_full is_approx app].
    destruct (Hx (proj2 Hm)) as (d0 & Hin & Hf0 & Hfull).
    destruct (match_characterised_lemma g Ha Hf0) as (r0 & Hr0 & Hm0).
    assert (Efull : r0 = full_match) by (destruct r0; cbn [match_spec] in Hm0; tauto). subst r0.
    pose proof (classify_full_In _ _ _ _ _ (rs1 ++ rs2) d0 (Forall2_app H1 H2) Hin Hr0) as Hne.
    rewrite classify_app in Hne by (eapply F2_len; eauto).
    destruct (classify ds1 rs1 is_full ++ classify ds2 rs2 is_full) as [|f [|f' fs]]; [contradiction|reflexivity|reflexivity].
  - rewrite E. destruct (find_nothrow_cases name g l s (ds1 ++ d :: ds2)) as [[rs Hrs]|[E' _]]; auto.
    exfalso. apply Exists_exists in Hex. destruct Hex as (d0 & Hin & Hu).
    assert (Hin' : In d0 (ds1 ++ d :: ds2)) by (apply in_app_iff in Hin; apply in_app_iff; cbn; tauto).
    clear - Hrs Hin' Hu. induction Hrs as [|x r ds rs Hx _ IH]; [contradiction|]. destruct Hin' as [->|Hin]; [congruence|auto].
Qed.

Section Frame.
Variables (c : cmdline) (ds1 ds2 : list option_description) (d : option_description).
Hypothesis Hds : cl_desc c = ds1 ++ ds2.
Hypothesis no_style_parser : cl_style_parser c = None.
Hypothesis foldable_new : foldable_option d (has (cl_style c) long_case_insensitive) (has (cl_style c) short_case_insensitive).
Hypothesis others : forall d0 typed k, In d0 (cl_desc c) -> is_key d0 typed k -> k = typed \/ spared c d k.

Notation c' := (with_desc c (ds1 ++ d :: ds2)).

Lemma lookup_same s : spared c d s -> lookup c' s = lookup c s.
Proof. intros H. unfold lookup. cbn [with_desc cl_desc cl_style]. unfold spared in H. rewrite Hds in *. now apply find_skip. Qed.

Lemma short_same x : spared_letter c d x ->
  find_nothrow (cl_desc c') [c_dash; x] false false (has (cl_style c') short_case_insensitive)
  = find_nothrow (cl_desc c) [c_dash; x] false false (has (cl_style c) short_case_insensitive).
Proof.
  intros [_ H]. cbn [with_desc cl_desc cl_style]. rewrite Hds in *. apply find_skip; auto.
  destruct foldable_new as [_ Hs]. split; [discriminate|exact Hs].
Qed.

Definition quiet (tok : str) : Prop := silent_on c d tok.
Definition key_ok (k : str) : Prop := k = [] \/ spared c d k.

Definition agree (p p' : style_parser) : Prop :=
  forall args, Forall quiet args ->
    p' args = p args
    /\ forall os args', p args = Ok (os, args') -> (exists pre, args = pre ++ args') /\ Forall (fun o => key_ok (po_key o)) os.

Lemma agree_reader p p' R N :
  reader p R N -> p [] = Undef UB_index -> p' [] = Undef UB_index ->
  (forall tok rest, quiet tok -> p' (tok :: rest) = p (tok :: rest)) ->
  (forall tok ms, quiet tok -> R tok ms -> Forall (fun m => key_ok (mn_name m)) ms) -> agree p p'.
Proof.
  intros [Hp _] E E' Hsame Hkeys args Ha. destruct args as [|tok rest].
  - rewrite E, E'. split; auto. discriminate.
  - inversion Ha; subst. split; auto. intros os args' H. apply Hp in H. destruct H as [(ms & HR & [= -> ->])|[_ [= -> ->]]].
    + split; [exists [tok]; reflexivity|]. apply Forall_forall. intros o Ho. apply in_map_iff in Ho. destruct Ho as (m & <- & Hm).
      pose proof (Hkeys tok ms ltac:(auto) HR) as HK. rewrite Forall_forall in HK. exact (HK m Hm).
    + split; [exists []; reflexivity|constructor].
Qed.

Lemma agree_additional f : cl_additional c = Some f -> agree (handle_additional_parser f) (handle_additional_parser f).
Proof.
  intros Hf. eapply agree_reader; [apply reader_additional|reflexivity|reflexivity|reflexivity|].
  intros tok ms Ht (n & v & E & Hn & ->). constructor; [|constructor]. right. apply Ht. apply (cn_claimed _ _ n v). exists f. auto.
Qed.

Lemma agree_long : has (cl_style c) allow_long = true -> agree (parse_long_option c) (parse_long_option c').
Proof.
  intros Hon. eapply agree_reader; [apply reader_long|reflexivity|reflexivity|reflexivity|].
  intros tok ms Ht (n & vs & Hw & ->). constructor; [|constructor]. right. apply Ht. eapply cn_long; eauto.
Qed.

Lemma long_before n name vs : long_words (dashdash ++ n) name vs -> before_eq n name.
Proof.
  intros H. remember (dashdash ++ n) as tok eqn:E. destruct H as [m Hm Hw|m v Hw Hv]; apply app_inv_head in E; subst n.
  - split; auto.
  - split; auto. right. exists v. reflexivity.
Qed.

Lemma agree_disguised : has (cl_style c) allow_long_disguise = true ->
  agree (parse_disguised_long_option c) (parse_disguised_long_option c').
Proof.
  intros Hon. eapply agree_reader; [now apply reader_disguised|reflexivity|reflexivity| |].
  - intros tok rest Ht. unfold parse_disguised_long_option. cbn [at_index nth_error bind].
    destruct tok as [|c1 [|c2 s]]; auto. cbn [with_desc cl_style].
    destruct ((char_eqb c1 c_dash && negb (char_eqb c2 c_dash)) || (has (cl_style c) allow_slash_for_short && char_eqb c1 c_slash)) eqn:Ec; auto.
    assert (Hdis : disguise c (c1 :: c2 :: s) (c2 :: s)).
    { split; [exact Hon|]. split; [discriminate|]. apply orb_true_iff in Ec. destruct Ec as [Ec|Ec]; apply andb_true_iff in Ec; destruct Ec as [E1 E2].
      - left. apply char_eqb_eq in E1. subst c1. split; auto. apply negb_true_iff, char_eqb_neq in E2. exact E2.
      - right. apply char_eqb_eq in E2. subst c1. auto. }
    assert (Hc1 : c1 <> c_eq) by (destruct Hdis as (_ & _ & [[E _]|[E _]]); injection E as ->; discriminate).
    destruct (before_eq_ex (c2 :: s)) as [m Hm]. rewrite (find_before c1 (c2 :: s) m Hc1 Hm).
    rewrite (lookup_same m) by (apply Ht; eapply cn_disguised; eauto). reflexivity.
  - intros tok ms Ht (n & m & d' & name & vs & Hd & Hb & _ & Hw & ->). constructor; [|constructor]. right. apply Ht.
    apply long_before in Hw. eapply cn_disguised; eauto.
Qed.

Lemma short_group_names tok0 x a ms : short_group c tok0 x a ms ->
  (forall y, In y (x :: a) -> spared_letter c d y) -> Forall (fun m => key_ok (mn_name m)) ms.
Proof.
  intros H. induction H as [x a od Hl Hc|x y a d' ms Hs Hl Hm Hg IH]; intros Hi.
  - constructor; [|constructor]. right. apply Hi. now left.
  - constructor; [|apply IH; auto; intros z Hz; apply Hi; now right]. right. apply Hi. now left.
Qed.

Lemma short_loop_same tok0 adjacent : forall x acc, (forall y, In y (x :: adjacent) -> spared_letter c d y) ->
  short_loop c' tok0 [c_dash; x] adjacent acc = short_loop c tok0 [c_dash; x] adjacent acc.
Proof.
  induction adjacent as [|a adjacent IH]; intros x acc Hi; cbn [short_loop];
    rewrite (short_same x) by (apply Hi; now left);
    change (cl_prefix c') with (cl_prefix c); auto.
  destruct (with_context [c_dash; x] [c_dash; x] (cl_prefix c)
    (find_nothrow (cl_desc c) [c_dash; x] false false (has (cl_style c) short_case_insensitive))) as [[d'|]|e|u|]; cbn [bind]; auto.
  change (cl_style c') with (cl_style c).
  destruct (has (cl_style c) allow_sticky && (vs_max (od_sem d') =? 0)%Z); auto.
  apply IH. intros y Hy. apply Hi. now right.
Qed.

Lemma agree_short : has (cl_style c) allow_short = true -> has (cl_style c) allow_dash_for_short = true ->
  agree (parse_short_option c) (parse_short_option c').
Proof.
  intros H1 H2.
  assert (letters : forall x a, quiet (c_dash :: x :: a) -> x <> c_dash -> forall y, In y (x :: a) -> spared_letter c d y).
  { intros x a Ht Hx y Hy. apply Ht, (ck_dash c _ (x :: a)); auto. }
  eapply agree_reader; [apply reader_short|reflexivity|reflexivity| |].
  - intros tok rest Ht. unfold parse_short_option. cbn [at_index nth_error bind].
    destruct tok as [|c1 [|c2 adj]]; auto. destruct (char_eqb_spec c1 c_dash) as [->|Hc1]; cbn [andb]; auto.
    destruct (char_eqb_spec c2 c_dash) as [Hc2|Hc2]; cbn [negb]; auto. rewrite short_loop_same; auto. now apply letters.
  - intros tok ms Ht (x & a & -> & Hx & Hg). apply (short_group_names _ _ _ _ Hg). now apply letters.
Qed.

Lemma agree_dos : has (cl_style c) allow_short = true -> has (cl_style c) allow_slash_for_short = true ->
  agree (parse_dos_option c) (parse_dos_option c').
Proof.
  intros H1 H2. eapply agree_reader; [apply reader_slash|reflexivity|reflexivity|reflexivity|].
  intros tok ms Ht (x & a & -> & ->). constructor; [|constructor]. right. apply Ht, (ck_slash c _ x a); auto.
Qed.

Lemma agree_terminator : agree parse_terminator parse_terminator.
Proof.
  intros args _. split; auto. intros os args' H. unfold parse_terminator in H. destruct args as [|tok rest]; [discriminate|].
  cbn [at_index nth_error bind tl] in H. destruct (str_eqb tok $"--"); injection H as <- <-.
  - split; [exists (tok :: rest); now rewrite app_nil_r|]. apply Forall_forall. intros o Ho. apply in_map_iff in Ho.
    destruct Ho as (t & <- & _). now left.
  - split; [exists []; reflexivity|constructor].
Qed.

Lemma agree_parsers : Forall2 agree (style_parsers c) (style_parsers c').
Proof.
  unfold style_parsers. change (cl_style_parser c') with (cl_style_parser c). change (cl_additional c') with (cl_additional c).
  change (cl_style c') with (cl_style c). rewrite no_style_parser. cbn [app].
  assert (one : forall p p', agree p p' -> Forall2 agree [p] [p']) by (intros; constructor; [auto|constructor]).
  repeat apply Forall2_app.
  - destruct (cl_additional c) as [f|] eqn:E; [|constructor]. now apply one, agree_additional.
  - destruct (has _ allow_long) eqn:E; [|constructor]. now apply one, agree_long.
  - destruct (has _ allow_long_disguise) eqn:E; [|constructor]. now apply one, agree_disguised.
  - destruct (_ && _) eqn:E; [|constructor]. apply andb_true_iff in E. now apply one, agree_short.
  - destruct (_ && _) eqn:E; [|constructor]. apply andb_true_iff in E. now apply one, agree_dos.
  - apply one, agree_terminator.
Qed.

Notation ps := (style_parsers c).
Notation ps' := (style_parsers c').

Lemma looks_same qs qs' args : Forall2 agree qs qs' -> Forall quiet args ->
  looks_like_option qs' args = looks_like_option qs args.
Proof.
  intros H. revert args. induction H as [|p p' qs qs' Hp _ IH]; intros args Ha; cbn [looks_like_option]; auto.
  destruct (Hp args Ha) as [E Hr]. rewrite E. destruct (p args) as [[os args']|e|u|] eqn:Ep; cbn [bind]; auto.
  destruct (Hr os args' eq_refl) as [[pre ->] _]. destruct (is_empty os); auto. apply IH. apply Forall_app in Ha. tauto.
Qed.

Lemma stands_like ms tok : stands_for c tok ms ->
  (exists n v, claimed c tok n v) \/ (exists r, tok = c_dash :: r) \/ (exists r, tok = c_slash :: r).
Proof.
  intros H. destruct H as [n v H|n vs _ _ H|n m d' name vs _ (_ & _ & [[-> _]|[-> _]]) _ _ _|x a ms _ _ _ -> _ _ _|x a _ _ _ -> _]; eauto.
  destruct H as [n _ _|n v _ _]; right; left; eexists; reflexivity.
Qed.

Lemma grab_same key other : Forall quiet other -> forall te n opt,
  grab_tokens c' ps' key te n opt other = grab_tokens c ps key te n opt other.
Proof.
  induction 1 as [|tok rest Ht Hr IH]; intros te n opt; cbn [grab_tokens]; auto.
  destruct (Z.eqb n 0); auto. rewrite (looks_same ps ps' [tok] agree_parsers) by (constructor; auto).
  change (cl_prefix c') with (cl_prefix c).
  destruct (with_context key te (cl_prefix c) (looks_like_option ps [tok])) as [b|e|u|] eqn:Eb; cbn [bind]; auto.
  destruct b; cbn [bind]; [|apply IH]. apply with_context_Ok in Eb. apply looks_ps in Eb; auto.
  destruct Eb as [[_ (ms & Hs)]|[E _]]; [|discriminate].
  rewrite (lookup_same tok) by (apply Ht, cn_token, (stands_like ms); exact Hs).
  destruct (with_context key tok (cl_prefix c) (lookup c tok)) as [[d'|]|e|u|]; cbn [bind]; auto.
Qed.

Lemma finish_same opt other : key_ok (po_key opt) -> Forall quiet other ->
  finish_option c' ps' opt other = finish_option c ps opt other
  /\ forall o other', finish_option c ps opt other = Ok (o, other') -> key_ok (po_key o) /\ exists pre, other = pre ++ other'.
Proof.
  intros Hk Ho. split.
  - unfold finish_option. destruct (is_empty (po_key opt)) eqn:Ek; auto.
    destruct Hk as [Hk|Hk]; [rewrite Hk in Ek; discriminate|].
    rewrite (lookup_same _ Hk). change (cl_prefix c') with (cl_prefix c).
    change (cl_allow_unregistered c') with (cl_allow_unregistered c).
    destruct (with_context _ _ (cl_prefix c) (lookup c (po_key opt))) as [[d'|]|e|u|]; cbn [bind]; auto.
    destruct (Z.leb _ _); auto. destruct (_ && _); auto. now apply grab_same.
  - intros o other' H. apply finish_option_ok in H. destruct H as [(E & -> & ->)|[(Hne & Hl & _ & -> & ->)|(Hne & d' & ts & Hl & -> & -> & _)]].
    + split; [now left|now exists []].
    + split; [exact Hk|now exists []].
    + split; [|now exists ts]. cbn. destruct Hk as [Hk|Hk]; [contradiction|].
      destruct (others d' (po_key opt) (od_key d' (po_key opt)) (lookup_In _ _ _ Hl) (is_key_od_key _ _)) as [->|Hu]; now right.
Qed.

Lemma finish_all_same os : Forall (fun o => key_ok (po_key o)) os -> forall args, Forall quiet args ->
  finish_all c' ps' os args = finish_all c ps os args
  /\ forall fs args', finish_all c ps os args = Ok (fs, args') ->
       Forall (fun o => key_ok (po_key o)) fs /\ exists pre, args = pre ++ args'.
Proof.
  induction 1 as [|o os Ho Hos IH]; intros args Ha.
  - split; auto. intros fs args' [= <- <-]. split; [constructor|now exists []].
  - destruct os as [|o2 os].
    + cbn [finish_all]. destruct (finish_same o args Ho Ha) as [E Hr]. rewrite E. split; auto.
      intros fs args' H. apply bind_Ok in H. destruct H as ((o' & r) & H & [= <- <-]). destruct (Hr _ _ H) as [Hk Hp].
      split; auto.
    + rewrite !finish_all_cons. destruct (finish_same o [] Ho (Forall_nil _)) as [E Hr]. destruct (IH args Ha) as [E2 Hr2].
      rewrite E, E2. split; auto. intros fs args' H. apply bind_Ok in H. destruct H as ((o' & r) & H & H').
      apply bind_Ok in H'. destruct H' as ((fs2 & r2) & H2 & [= <- <-]). destruct (Hr _ _ H) as [Hk _]. destruct (Hr2 _ _ H2) as [Hk2 Hp].
      split; auto.
Qed.

Lemma try_same qs qs' : Forall2 agree qs qs' -> forall args, Forall quiet args ->
  try_parsers c' ps' qs' args = try_parsers c ps qs args
  /\ forall fs args' ok, try_parsers c ps qs args = Ok (fs, args', ok) ->
       Forall (fun o => key_ok (po_key o)) fs /\ exists pre, args = pre ++ args'.
Proof.
  induction 1 as [|p p' qs qs' Hp _ IH]; intros args Ha; cbn [try_parsers].
  - split; auto. intros fs args' ok [= <- <- <-]. split; [constructor|now exists []].
  - destruct (Hp args Ha) as [E Hr]. rewrite E. destruct (p args) as [[os a1]|e|u|]; cbn [bind]; try (split; [auto|discriminate]).
    destruct (Hr os a1 eq_refl) as [[pre ->] Hk]. apply Forall_app in Ha. destruct Ha as [Ha0 Ha1].
    destruct (finish_all_same os Hk a1 Ha1) as [Ef Hf]. rewrite Ef.
    destruct (finish_all c ps os a1) as [[fs a2]|e|u|]; cbn [bind]; try (split; [auto|discriminate]).
    destruct (Hf fs a2 eq_refl) as [Hkf [pre2 ->]]. destruct (Nat.eqb _ _).
    + apply Forall_app in Ha1. destruct (IH a2 (proj2 Ha1)) as [Et Ht]. rewrite Et. split; auto.
      intros fs' args' ok H. apply bind_Ok in H. destruct H as (((f2 & a3) & o3) & H & [= <- <- <-]).
      destruct (Ht _ _ _ H) as [Hk3 [pre3 ->]]. split; [apply Forall_app; auto|]. exists (pre ++ pre2 ++ pre3). now rewrite <- !app_assoc.
    + split; auto. intros fs' args' ok [= <- <- <-]. split; auto. exists (pre ++ pre2). now rewrite <- app_assoc.
Qed.

Lemma main_same fuel : forall args, Forall quiet args ->
  main_loop fuel c' args = main_loop fuel c args
  /\ forall os, main_loop fuel c args = Ok os -> Forall (fun o => key_ok (po_key o)) os.
Proof.
  induction fuel as [|fuel IH]; intros args Ha; (destruct args as [|tok rest]; cbn [main_loop]; [split; [auto|intros os [= <-]; constructor]|]).
  - split; [auto|discriminate].
  - unfold main_step. destruct (try_same _ _ agree_parsers (tok :: rest) Ha) as [Et Ht]. rewrite Et.
    destruct (try_parsers c ps ps (tok :: rest)) as [[[fs a1] ok]|e|u|]; cbn [bind]; try (split; [auto|discriminate]).
    destruct (Ht fs a1 ok eq_refl) as [Hk [pre E]].
    assert (Ha1 : Forall quiet a1) by (rewrite E in Ha; apply Forall_app in Ha; tauto).
    destruct ok; cbn [bind fst snd].
    + destruct (IH a1 Ha1) as [Em Hm]. rewrite Em. split; auto. intros os H. apply bind_Ok in H. destruct H as (r & H & [= <-]).
      apply Forall_app. split; eauto.
    + destruct a1 as [|t a1]; [split; [auto|discriminate]|]. cbn [at_index nth_error bind erase_front fst snd].
      inversion Ha1; subst. destruct (IH a1 ltac:(auto)) as [Em Hm]. rewrite Em. split; auto.
      intros os H. apply bind_Ok in H. destruct H as (r & H & [= <-]). apply Forall_app. split; eauto.
      apply Forall_app. split; auto. constructor; [now left|constructor].
Qed.

Lemma merge_same fuel : forall os, Forall (fun o => key_ok (po_key o)) os -> merge_pass fuel c' os = merge_pass fuel c os.
Proof.
  induction fuel as [|fuel IH]; intros os Ho; (destruct os as [|o os]; cbn [merge_pass]; auto).
  inversion Ho as [|? ? Hk Ho']; subst. destruct (is_empty (po_key o)) eqn:Ek; [now rewrite IH|].
  destruct Hk as [Hk|Hk]; [rewrite Hk in Ek; discriminate|]. rewrite (lookup_same _ Hk). change (cl_prefix c') with (cl_prefix c).
  destruct (lookup c (po_key o)) as [xd|e|u|]; cbn [bind]; auto.
  2: { destruct (has_option_name _); auto. destruct (at_index _ _); reflexivity. }
  destruct xd as [d'|]; [|now rewrite IH].
  destruct (_ && _); [|now rewrite IH].
  destruct (grab_positional _ o os) as [[o' fol]|e|u|] eqn:Eg; cbn [bind]; auto.
  apply grab_positional_ok in Eg. destruct Eg as (taken & -> & _). apply Forall_app in Ho'. cbn [snd]. rewrite IH; [reflexivity|tauto].
Qed.

Lemma run_same fuel args : Forall quiet args -> run fuel c' args = run fuel c args.
Proof.
  intros Ha. unfold run. destruct (main_same fuel args Ha) as [E Hk]. rewrite E.
  destruct (main_loop fuel c args) as [r1|e|u|]; cbn [bind]; auto. rewrite (merge_same _ _ (Hk r1 eq_refl)). reflexivity.
Qed.

End Frame.

(** ** Config files *)

Lemma reads_same ds ds' allow sec es r : reads ds allow sec es r ->
  (forall n, assigns sec es n -> (accepts ds' n <-> accepts ds n)) -> reads ds' allow sec es r.
Proof.
  induction 1 as [sec|sec es r H IH|s sec' sec es r Hs H IH|sec es|sec n v es r Ha H IH|sec n v es r Ha Hal H IH|sec n v es Ha Hal|sec s es];
    intros Hn.
  - constructor.
  - constructor. apply IH. intros n Hin. apply Hn. now constructor.
  - apply (rd_section _ _ s sec'); auto. apply IH. intros n Hin. apply Hn. now apply (as_section s sec').
  - constructor.
  - constructor; [apply Hn; auto; constructor|]. apply IH. intros n0 Hin. apply Hn. now constructor.
  - apply rd_unregistered; auto; [rewrite Hn; auto; constructor|]. apply IH. intros n0 Hin. apply Hn. now constructor.
  - apply rd_unknown; auto. rewrite Hn; auto. constructor.
  - constructor.
Qed.

Lemma reads_accepted ds sec es r : reads ds false sec es r -> forall os, r = Ok os -> forall n, assigns sec es n -> accepts ds n.
Proof.
  intros H. remember false as allow eqn:Ea.
  induction H as [sec|sec es r H IH|s sec' sec es r Hs H IH|sec es|sec n v es r Ha H IH|sec n v es r Ha Hal H IH|sec n v es Ha Hal|sec s es];
    intros os E n0 Hn; try discriminate; try congruence.
  - inversion Hn.
  - inversion Hn; subst. eapply IH; eauto.
  - inversion Hn as [| |s0 sec0 sec1 es0 n1 Hs' Hn'|]; subst. rewrite (section_name_fun _ _ _ Hs' Hs) in Hn'. eapply IH; eauto.
  - apply bind_Ok in E. destruct E as (os' & -> & _). inversion Hn; subst; auto. eapply IH; eauto.
Qed.

Lemma accepts_app ds1 d ds2 n : accepts (ds1 ++ d :: ds2) n <-> accepts (ds1 ++ ds2) n \/ accepts [d] n.
Proof.
  assert (Hin : forall x, In x (ds1 ++ d :: ds2) <-> In x (ds1 ++ ds2) \/ In x [d]).
  { intros x. rewrite !in_app_iff. cbn. tauto. }
  unfold accepts, wildcard. split.
  - intros [(x & Hx & Hm)|(p & (x & Hx & Hm) & Hp & Hn)]; apply Hin in Hx; destruct Hx; eauto 10.
  - intros [[(x & Hx & Hm)|(p & (x & Hx & Hm) & Hp & Hn)]|[(x & Hx & Hm)|(p & (x & Hx & Hm) & Hp & Hn)]];
      assert (Hx' : In x (ds1 ++ d :: ds2)) by (apply Hin; tauto); eauto 10.
Qed.

Lemma named_app ds1 d ds2 : all_named (ds1 ++ d :: ds2) -> all_named (ds1 ++ ds2).
Proof. unfold all_named. rewrite !Forall_app. intros [H1 H2]. inversion H2. auto. Qed.

Lemma compatible_app ds1 d ds2 : compatible (ds1 ++ d :: ds2) -> compatible (ds1 ++ ds2).
Proof.
  intros H p q (x & Hx & Hm) (y & Hy & Hm'). apply H; [exists x|exists y]; split; auto; rewrite in_app_iff in *; cbn; tauto.
Qed.

(** ** Storing *)

Lemma store_options_same ds ds' prefix final utf8 opts :
  (forall o, In o opts -> po_key o <> [] -> po_unreg o = false -> find ds' (po_key o) false false false = find ds (po_key o) false false false) ->
  forall m nf, store_options ds' prefix final utf8 opts m nf = store_options ds prefix final utf8 opts m nf.
Proof.
  induction opts as [|o opts IH]; intros Hf m nf; cbn [store_options]; auto.
  assert (Hf' := fun o' Ho => Hf o' (or_intror Ho)).
  destruct (is_empty (po_key o)) eqn:Ee; [now apply IH|]. destruct (po_unreg o) eqn:Eu; [now apply IH|].
  destruct (ss_mem _ _); [now apply IH|]. rewrite Hf; [|now left|intros E; rewrite E in Ee; discriminate|auto].
  destruct (find ds (po_key o) false false false) as [d|e|u|]; auto.
  destruct (vs_parse _ _ _ _) as [a [t|e|u|]]; auto.
Qed.

(** What storing the defaults does to [name], as a function. *)
Definition def_of (ds : list option_description) (name : str) (v : option variable_value) : option variable_value :=
  fold_left (fun v d =>
    if str_eqb (od_key d []) name then
      match v with
      | Some _ => v
      | None => match vs_default (od_sem d) with Some def => Some (mk_vv def true (Some (od_sem d))) | None => None end
      end
    else v) ds v.

Lemma store_defaults_def prefix name : name <> [] -> forall ds m req,
  sm_find name (fst (store_defaults ds prefix m req)) = def_of ds name (sm_find name m).
Proof.
  intros Hne. induction ds as [|d ds IH]; intros m req; cbn [store_defaults def_of fold_left]; auto.
  fold (def_of ds name). destruct (is_empty (od_key d [])) eqn:Ee.
  - apply is_empty_true in Ee. rewrite Ee. destruct (str_eqb_spec [] name); [congruence|]. apply IH.
  - rewrite IH. unfold def_of. f_equal. unfold sm_mem. destruct (str_eqb_spec (od_key d []) name) as [E|Hd].
    + rewrite E. destruct (sm_find name m) as [v|] eqn:Ev; auto. destruct (vs_default (od_sem d)); auto. apply sm_find_set_same.
    + destruct (sm_find (od_key d []) m); auto. destruct (vs_default (od_sem d)); auto. apply sm_find_set_other. congruence.
Qed.

Lemma def_of_app ds1 ds2 name v : def_of (ds1 ++ ds2) name v = def_of ds2 name (def_of ds1 name v).
Proof. apply fold_left_app. Qed.

Lemma def_of_other ds name v : Forall (fun d => ~ is_key d [] name) ds -> def_of ds name v = v.
Proof.
  intros H. revert v. induction H as [|d ds Hd _ IH]; intros v; auto. unfold def_of. cbn [fold_left]. fold (def_of ds name).
  rewrite is_key_od in Hd. destruct (str_eqb_spec (od_key d []) name); [contradiction|]. apply IH.
Qed.

Section Upgrade.
Variable d : option_description.

(** The names the new option does not use. *)
Definition free (name : str) : Prop := name <> [] /\ ~ is_key d [] name.

Lemma free_key ds k : passes_over ds d k false false false -> k <> [] -> free k.
Proof.
  intros (_ & Hf & _) Hne. split; auto. intros Hk. apply Hf.
  destruct Hk as [(f & r & E & Hs & ->)|[(f & r & _ & _ & E)|[E ->]]].
  - left. exists f. rewrite E. split; [now left|]. split; auto. exists f. split; reflexivity.
  - contradiction.
  - right. exists (od_short d). split; reflexivity.
Qed.

Definition alike (m m' : smap variable_value) : Prop := forall name, free name -> sm_find name m' = sm_find name m.

Lemma alike_set m m' k v : alike m m' -> alike (sm_set k v m) (sm_set k v m').
Proof. intros H name Hn. rewrite !sm_find_set. destruct (str_eqb name k); auto. Qed.

Lemma store_options_alike ds ds' prefix final utf8 opts :
  (forall o, In o opts -> po_key o <> [] -> po_unreg o = false ->
     free (po_key o) /\ find ds' (po_key o) false false false = find ds (po_key o) false false false) ->
  forall m m' nf, alike m m' ->
  exists m1 m1' nf1 r, store_options ds prefix final utf8 opts m nf = (m1, nf1, r)
    /\ store_options ds' prefix final utf8 opts m' nf = (m1', nf1, r) /\ alike m1 m1'.
Proof.
  induction opts as [|o opts IH]; intros Hf m m' nf Hm; cbn [store_options]; [eauto 10|].
  assert (Hf' := fun o' Ho => Hf o' (or_intror Ho)).
  destruct (is_empty (po_key o)) eqn:Ee; [now apply IH|]. destruct (po_unreg o) eqn:Eu; [now apply IH|].
  destruct (ss_mem _ _); [now apply IH|]. destruct (Hf o) as [Hk E]; [now left|intros E; rewrite E in Ee; discriminate|auto|].
  rewrite E, (Hm _ Hk). destruct (find ds (po_key o) false false false) as [d'|e|u|]; try (repeat eexists; now auto).
  destruct (vs_parse _ _ _ _) as [a [t|e|u|]]; try (repeat eexists; now auto using alike_set).
  apply IH; auto using alike_set.
Qed.

Lemma store_defaults_alike ds1 ds2 prefix m m' req req' : alike m m' ->
  alike (fst (store_defaults (ds1 ++ ds2) prefix m req)) (fst (store_defaults (ds1 ++ d :: ds2) prefix m' req')).
Proof.
  intros Hm name Hn. rewrite !store_defaults_def by (apply Hn). rewrite !def_of_app, (Hm _ Hn).
  change (d :: ds2) with ([d] ++ ds2). rewrite def_of_app, (def_of_other [d]); auto. constructor; [apply Hn|constructor].
Qed.

Lemma store_defaults_alike0 ds prefix m m' req req' : alike m m' ->
  alike (fst (store_defaults ds prefix m req)) (fst (store_defaults ds prefix m' req')).
Proof. intros Hm name Hn. rewrite !store_defaults_def by (apply Hn). now rewrite (Hm _ Hn). Qed.

Lemma store_alike a b vm vm' : upgraded d a b -> source_silent_on d a -> alike (vm_map vm) (vm_map vm') -> vm_final vm' = vm_final vm ->
  let r := store (fst a) vm (snd a) in let r' := store (fst b) vm' (snd b) in
  snd r' = snd r /\ alike (vm_map (fst r)) (vm_map (fst r')) /\ vm_final (fst r') = vm_final (fst r).
Proof.
  intros Hu Hs Hm Hfin. destruct a as [p u]. cbn [fst snd] in *. cbv zeta.
  assert (G : forall ds ds', pr_desc p = Some ds -> 
    (forall o, In o (pr_options p) -> po_key o <> [] -> po_unreg o = false ->
       free (po_key o) /\ find ds' (po_key o) false false false = find ds (po_key o) false false false) ->
    (forall m m' req req', alike m m' -> alike (fst (store_defaults ds (pr_prefix p) m req)) (fst (store_defaults ds' (pr_prefix p) m' req'))) ->
    let r := store p vm u in let r' := store (with_options p ds') vm' u in
    snd r' = snd r /\ alike (vm_map (fst r)) (vm_map (fst r')) /\ vm_final (fst r') = vm_final (fst r)).
  { intros ds ds' Ed Ho Hdef. unfold store. cbn [with_options pr_desc pr_options pr_prefix]. rewrite Ed, Hfin.
    destruct (store_options_alike ds ds' (pr_prefix p) (vm_final vm) u (pr_options p) Ho _ _ [] Hm) as (m1 & m1' & nf & r & -> & -> & Hm1).
    destruct r as [t|e|w|]; cbn [fst snd vm_map vm_final]; auto.
    specialize (Hdef m1 m1' (vm_required vm) (vm_required vm') Hm1).
    destruct (store_defaults ds (pr_prefix p) m1 (vm_required vm)) as [m2 q].
    destruct (store_defaults ds' (pr_prefix p) m1' (vm_required vm')) as [m2' q']. cbn [fst snd vm_map vm_final] in *. auto. }
  destruct Hu as [->|(ds1 & ds2 & Ed & ->)]; cbn [fst snd] in *.
  - destruct (pr_desc p) as [ds|] eqn:Ed.
    + replace (store p vm' u) with (store (with_options p ds) vm' u) by (unfold store, with_options; cbn; now rewrite Ed).
      apply (G ds ds eq_refl); [|intros; now apply store_defaults_alike0].
      intros o Ho Hk Hr. split; auto. eapply free_key; eauto.
    + unfold store. rewrite Ed. auto.
  - apply (G _ _ Ed); [|intros; now apply store_defaults_alike].
    intros o Ho Hk Hr. pose proof (Hs _ o Ed Ho Hk Hr) as Hp. split; [eapply free_key; eauto|].
    unfold find. rewrite find_skip; auto. split; discriminate.
Qed.

Lemma stores_alike h : forall h' vm vm' vm1, Forall2 (upgraded d) h h' -> Forall (source_silent_on d) h ->
  alike (vm_map vm) (vm_map vm') -> vm_final vm' = vm_final vm -> stores vm h vm1 ->
  exists vm1', stores vm' h' vm1' /\ alike (vm_map vm1) (vm_map vm1').
Proof.
  induction h as [|[p u] h IH]; intros h' vm vm' vm1 Hu Hs Hm Hf H.
  - inversion Hu; subst. inversion H; subst. exists vm'. split; [constructor|auto].
  - inversion Hu as [|? [p' u'] ? h1 Hu1 Hu2]; subst. inversion Hs; subst. inversion H as [|? ? ? vm2 ? ? E Hst]; subst.
    destruct (store_alike (p, u) (p', u') vm vm' Hu1 ltac:(auto) Hm Hf) as (E1 & Hm2 & Hf2). cbn [fst snd] in *. rewrite E in *. cbn [fst snd] in *.
    destruct (store p' vm' u') as [vm2' r'] eqn:E'. cbn [fst snd] in *. subst r'.
    destruct (IH h1 vm2 vm2' vm1 Hu2 ltac:(auto) Hm2 Hf2 Hst) as (vm1' & Hst' & Hm1). exists vm1'. split; auto. econstructor; eauto.
Qed.

Lemma declarations_upgraded h h' name : ~ is_key d [] name -> Forall2 (upgraded d) h h' ->
  (Exists (demands name) (declarations h') <-> Exists (demands name) (declarations h)).
Proof.
  intros Hn. induction 1 as [|[p u] b h h' Hu _ IH]; [reflexivity|]. unfold declarations. cbn [map List.concat].
  fold (declarations h'). fold (declarations h). rewrite !Exists_app, IH.
  assert (E : Exists (demands name) match pr_desc (fst b) with Some ds => map (pair (pr_prefix (fst b))) ds | None => [] end
    <-> Exists (demands name) match pr_desc p with Some ds => map (pair (pr_prefix p)) ds | None => [] end); [|cbn [fst]; rewrite E; reflexivity].
  destruct Hu as [->|(ds1 & ds2 & Ed & ->)]; cbn [fst snd with_options pr_desc pr_prefix] in *; [reflexivity|].
  rewrite Ed, !map_app, !Exists_app. cbn [map]. rewrite Exists_cons. unfold demands at 2. cbn [snd]. tauto.
Qed.

Lemma missing_alike h h' vm vm' name : Forall2 (upgraded d) h h' -> alike (vm_map vm) (vm_map vm') -> free name ->
  missing h' vm' name <-> missing h vm name.
Proof.
  intros Hu Hm Hn. unfold missing, has_value, entry. rewrite (declarations_upgraded h h' name (proj2 Hn) Hu), (Hm _ Hn). reflexivity.
Qed.

End Upgrade.
