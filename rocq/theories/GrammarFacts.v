(** The command line parser accepts exactly the language of [SpecGrammar.v]. *)

From Coq Require Import List Ascii String NArith ZArith Bool Arith Lia.
From Verif Require Import Base Errors Spec BaseFacts Values OptDesc SpecLookup LookupFacts Positional Cmdline
  SpecCmdline CmdlineFacts RunFacts ReadFacts SoundFacts SpecReject SpecGrammar.
Import ListNotations.

Lemma eq_split a x b y : without c_eq a -> without c_eq b -> a ++ c_eq :: x = b ++ c_eq :: y -> a = b /\ x = y.
Proof.
  revert b. induction a as [|p a IH]; intros b Ha Hb E; destruct b as [|q b]; cbn [app] in E.
  - injection E. auto.
  - injection E as E _. exfalso. apply Hb. now left.
  - injection E as E _. exfalso. apply Ha. now left.
  - injection E as -> E. destruct (IH b) as [-> ->]; auto; intros Hi; [apply Ha|apply Hb]; now right.
Qed.

Lemma eq_nosplit a b y : without c_eq a -> a <> b ++ c_eq :: y.
Proof. intros Ha ->. apply Ha, in_or_app. right. now left. Qed.

Lemma before_eq_fun n m m' : before_eq n m -> before_eq n m' -> m = m'.
Proof.
  intros [Hm E] [Hm' E']. destruct E as [->|[v ->]], E' as [E'|[v' E']].
  - auto.
  - exfalso. exact (eq_nosplit _ _ _ Hm E').
  - exfalso. exact (eq_nosplit _ _ _ Hm' (eq_sym E')).
  - destruct (eq_split m v m' v'); auto.
Qed.

Lemma before_eq_ex n : exists m, before_eq n m.
Proof.
  induction n as [|x n [m [Hm E]]]; [exists []; split; [intros []|auto]|].
  destruct (char_eqb_spec x c_eq) as [->|Hx].
  - exists []. split; [intros []|]. right. exists n. reflexivity.
  - exists (x :: m). split; [intros [H|H]; [now apply Hx|now apply Hm]|].
    destruct E as [->|[v ->]]; [left; auto|right; exists v; reflexivity].
Qed.

Lemma long_words_shape tok n vs : long_words tok n vs -> exists t, t <> [] /\ tok = dashdash ++ t.
Proof.
  intros [m Hm _|m v _ _]; [exists m; auto|]. eexists. split; [|reflexivity]. now destruct m.
Qed.

Lemma long_words_fun tok n vs n' vs' : long_words tok n vs -> long_words tok n' vs' -> n = n' /\ vs = vs'.
Proof.
  intros H H'. destruct H as [m M1 M2|m v M1 M2].
  - remember (dashdash ++ m) as tok eqn:E. destruct H' as [m' M1' M2'|m' v' M1' M2']; apply app_inv_head in E.
    + auto.
    + exfalso. exact (eq_nosplit _ _ _ M2 (eq_sym E)).
  - remember (dashdash ++ m ++ [c_eq] ++ v) as tok eqn:E. destruct H' as [m' M1' M2'|m' v' M1' M2']; apply app_inv_head in E.
    + exfalso. exact (eq_nosplit _ _ _ M2' E).
    + destruct (eq_split _ _ _ _ M1' M1 E) as [-> ->]. auto.
Qed.

Lemma long_words_dangling n m vs : without c_eq n -> ~ long_words (dashdash ++ n ++ [c_eq]) m vs.
Proof.
  intros Hn H. remember (dashdash ++ n ++ [c_eq]) as tok eqn:E. destruct H as [m M1 M2|m v M1 M2]; apply app_inv_head in E.
  - exact (eq_nosplit _ _ _ M2 E).
  - destruct (eq_split _ _ _ _ M1 Hn E) as [_ ->]. contradiction.
Qed.

Definition raw_of (m : mention) : popt := raw (mn_name m) (mn_values m) (mn_tokens m).

Lemma perhaps_opt v : perhaps v = opt_value v.
Proof. now destruct v. Qed.

(** ** What a style parser reads, and what it passes over *)

Definition reader (p : style_parser) (R : str -> list mention -> Prop) (N : str -> Prop) : Prop :=
  (forall tok rest r, p (tok :: rest) = Ok r <->
    (exists ms, R tok ms /\ r = (map raw_of ms, rest)) \/ (N tok /\ r = ([], tok :: rest)))
  /\ (forall tok ms, R tok ms -> ms <> []).

Section Readers.
Variable c : cmdline.
Notation on flag := (has (cl_style c) flag = true).

Definition R_additional f (tok : str) (ms : list mention) : Prop :=
  exists n v, f tok = (n, v) /\ n <> [] /\ ms = [mk_mention n (perhaps v) []].
Definition N_additional (f : str -> str * str) (tok : str) : Prop := fst (f tok) = [].

Lemma reader_additional f : reader (handle_additional_parser f) (R_additional f) (N_additional f).
Proof.
  split.
  - intros tok rest r. unfold handle_additional_parser, R_additional, N_additional. cbn [at_index nth_error bind].
    destruct (f tok) as [n v]. cbn [fst]. destruct n as [|x n]; cbn [is_empty erase_front bind].
    + split; [intros [= <-]; right; auto|]. intros [(ms & (n & v' & E & Hn & _) & _)|[_ ->]]; auto.
      injection E as <- _. contradiction.
    + split.
      * intros [= <-]. left. eexists. split; [exists (x :: n), v; split; [reflexivity|split; [discriminate|reflexivity]]|].
        cbn. unfold raw_of. cbn. now rewrite perhaps_opt.
      * intros [(ms & (n' & v' & E & Hn & ->) & ->)|[E _]]; [|discriminate]. injection E as <- <-. cbn. unfold raw_of, raw. cbn.
        now rewrite perhaps_opt.
  - intros tok ms (n & v & _ & _ & ->). discriminate.
Qed.

Definition R_long (tok : str) (ms : list mention) : Prop := exists n vs, long_words tok n vs /\ ms = [mk_mention n vs [tok]].
Definition N_long (tok : str) : Prop := ~ exists n, n <> [] /\ tok = dashdash ++ n.

Lemma reader_long : reader (parse_long_option c) R_long N_long.
Proof.
  split.
  - intros tok rest r.
    destruct (parse_long_cases c tok rest) as [[-> Hx]|[(n & E & Hne & Hn & ->)|[(n & v & E & Hn & Hv & ->)|(n & E & Hn & ->)]]].
    + assert (HN : N_long tok) by (intros (n & Hn & ->); apply Hn, (Hx n); reflexivity).
      split; [intros [= <-]; right; auto|]. intros [(ms & (n & vs & Hw & _) & _)|[_ ->]]; auto.
      exfalso. apply HN. exact (long_words_shape _ _ _ Hw).
    + assert (Hw : long_words tok n []) by (rewrite E; exact (lw_bare n Hne Hn)).
      split.
      * intros [= <-]. left. eexists. split; [exists n, []; split; [exact Hw|reflexivity]|reflexivity].
      * intros [(ms & (n' & vs & Hw' & ->) & ->)|[HN _]].
        -- destruct (long_words_fun _ _ _ _ _ Hw Hw') as [<- <-]. reflexivity.
        -- exfalso. apply HN. exact (long_words_shape _ _ _ Hw).
    + assert (Hw : long_words tok n [v]) by (rewrite E; exact (lw_value n v Hn Hv)).
      split.
      * intros [= <-]. left. eexists. split; [exists n, [v]; split; [exact Hw|reflexivity]|reflexivity].
      * intros [(ms & (n' & vs & Hw' & ->) & ->)|[HN _]].
        -- destruct (long_words_fun _ _ _ _ _ Hw Hw') as [<- <-]. reflexivity.
        -- exfalso. apply HN. exact (long_words_shape _ _ _ Hw).
    + split; [discriminate|]. intros [(ms & (n' & vs & Hw' & _) & _)|[HN _]]; exfalso.
      * rewrite E in Hw'. exact (long_words_dangling _ _ _ Hn Hw').
      * apply HN. exists (n ++ [c_eq]). split; [now destruct n|exact E].
  - intros tok ms (n & vs & _ & ->). discriminate.
Qed.

Definition R_disguised (tok : str) (ms : list mention) : Prop :=
  exists n m d name vs, disguise c tok n /\ before_eq n m /\ lookup c m = Ok (Some d)
    /\ long_words (dashdash ++ n) name vs /\ ms = [mk_mention name vs [dashdash ++ n]].
Definition N_disguised (tok : str) : Prop := forall n m, disguise c tok n -> before_eq n m -> lookup c m = Ok None.

Lemma disguise_fun tok n n' : disguise c tok n -> disguise c tok n' -> n = n'.
Proof. intros (_ & _ & [[-> _]|[-> _]]) (_ & _ & [[E _]|[E _]]); congruence. Qed.

Lemma find_before c1 n m : c1 <> c_eq -> before_eq n m ->
  match find_char c_eq (c1 :: n) with
  | Some p => substr_n (c1 :: n) 1 (p - 1)
  | None => substr (c1 :: n) 1
  end = m.
Proof.
  intros Hc [Hm E]. cbn [find_char]. destruct (char_eqb_spec c1 c_eq); [contradiction|].
  destruct E as [->|[v ->]].
  - apply find_char_None in Hm. rewrite Hm. reflexivity.
  - cbn [app]. rewrite find_char_app by auto. cbn [option_map]. unfold substr_n. cbn [skipn].
    replace (S (List.length m) - 1) with (List.length m) by lia. apply firstn_app_exact.
Qed.

Lemma reader_disguised : on allow_long_disguise -> reader (parse_disguised_long_option c) R_disguised N_disguised.
Proof.
  intros Hon. split.
  2: { intros tok ms (n & m & d & name & vs & _ & _ & _ & _ & ->). discriminate. }
  intros tok rest r. unfold parse_disguised_long_option. cbn [at_index nth_error bind].
  assert (Hskip : (forall n, ~ disguise c tok n) -> Ok ([], tok :: rest) = Ok r <->
    (exists ms, R_disguised tok ms /\ r = (map raw_of ms, rest)) \/ (N_disguised tok /\ r = ([], tok :: rest))).
  { intros Hd. split.
    - intros [= <-]. right. split; auto. intros n m H _. contradiction (Hd n H).
    - intros [(ms & (n & m & d & name & vs & H & _) & _)|[_ ->]]; auto. contradiction (Hd n H). }
  destruct tok as [|c1 [|c2 s]].
  1-2: apply Hskip; intros n (_ & Hn & [[E _]|[E _]]); try discriminate; injection E as _ <-; now apply Hn.
  destruct ((char_eqb c1 c_dash && negb (char_eqb c2 c_dash)) || (has (cl_style c) allow_slash_for_short && char_eqb c1 c_slash)) eqn:Ec.
  2: { apply Hskip. intros n (_ & Hn & H). apply orb_false_iff in Ec. destruct Ec as [E1 E2]. destruct H as [[E H]|[E H]]; injection E as -> <-.
       - cbn [hd] in H. apply char_eqb_neq in H. rewrite H in E1. discriminate.
       - rewrite H in E2. discriminate. }
  assert (Hdis : disguise c (c1 :: c2 :: s) (c2 :: s)).
  { split; [exact Hon|]. split; [discriminate|]. apply orb_true_iff in Ec. destruct Ec as [Ec|Ec]; apply andb_true_iff in Ec; destruct Ec as [E1 E2].
    - left. apply char_eqb_eq in E1. subst c1. split; auto. apply negb_true_iff, char_eqb_neq in E2. exact E2.
    - right. apply char_eqb_eq in E2. subst c1. auto. }
  assert (Hc1 : c1 = c_dash \/ c1 = c_slash) by (destruct Hdis as (_ & _ & [[E _]|[E _]]); injection E as ->; auto).
  destruct (before_eq_ex (c2 :: s)) as [m Hm].
  rewrite (find_before c1 (c2 :: s) m) by (auto; destruct Hc1 as [->| ->]; discriminate).
  assert (Htok : c_dash :: (if char_eqb c1 c_slash then c_dash else c1) :: tl (c1 :: c2 :: s) = dashdash ++ c2 :: s).
  { destruct Hc1 as [-> | ->]; reflexivity. }
  assert (Hd : forall n m', disguise c (c1 :: c2 :: s) n -> before_eq n m' -> n = c2 :: s /\ m' = m).
  { intros n m' H1 H2. pose proof (disguise_fun _ _ _ Hdis H1) as <-. split; auto. eapply before_eq_fun; eauto. }
  destruct (lookup c m) as [[d|]|e|u|] eqn:El; cbn [with_context bind].
  - cbn [erase_front bind]. rewrite Htok. rewrite with_context_Ok. rewrite (proj1 reader_long). split.
    + intros [(ms & (name & vs & Hw & ->) & ->)|[HN _]].
      * left. eexists. split; [|reflexivity]. exists (c2 :: s), m, d, name, vs. auto.
      * exfalso. apply HN. exists (c2 :: s). split; [discriminate|reflexivity].
    + intros [(ms & (n & m' & d' & name & vs & H1 & H2 & _ & H4 & ->) & ->)|[HN _]].
      * destruct (Hd n m' H1 H2) as [-> ->]. left. eexists. split; [|reflexivity]. exists name, vs. auto.
      * exfalso. rewrite (HN _ _ Hdis Hm) in El. discriminate.
  - split.
    + intros [= <-]. right. split; auto. intros n m' H1 H2. destruct (Hd n m' H1 H2) as [_ ->]. exact El.
    + intros [(ms & (n & m' & d' & name & vs & H1 & H2 & H3 & _) & _)|[_ ->]]; auto.
      destruct (Hd n m' H1 H2) as [_ ->]. congruence.
  - split; [discriminate|]. intros [(ms & (n & m' & d' & name & vs & H1 & H2 & H3 & _) & _)|[HN _]]; exfalso.
    + destruct (Hd n m' H1 H2) as [_ ->]. congruence.
    + rewrite (HN _ _ Hdis Hm) in El. discriminate.
  - split; [discriminate|]. intros [(ms & (n & m' & d' & name & vs & H1 & H2 & H3 & _) & _)|[HN _]]; exfalso.
    + destruct (Hd n m' H1 H2) as [_ ->]. congruence.
    + rewrite (HN _ _ Hdis Hm) in El. discriminate.
  - split; [discriminate|]. intros [(ms & (n & m' & d' & name & vs & H1 & H2 & H3 & _) & _)|[HN _]]; exfalso.
    + destruct (Hd n m' H1 H2) as [_ ->]. congruence.
    + rewrite (HN _ _ Hdis Hm) in El. discriminate.
Qed.

Lemma short_loop_iff tok adjacent : forall x acc os,
  short_loop c tok [c_dash; x] adjacent acc = Ok os <-> exists ms, short_group c tok x adjacent ms /\ os = acc ++ map raw_of ms.
Proof.
  induction adjacent as [|a adjacent IH]; intros x acc os; cbn [short_loop].
  - split.
    + intros H. apply bind_Ok in H. destruct H as (od & Hd & H). apply with_context_Ok in Hd.
      exists [mk_mention [c_dash; x] [] [tok]]. split; [apply (sg_last c tok x [] od); auto|].
      destruct od; injection H as <-; reflexivity.
    + intros (ms & Hg & ->). inversion Hg; subst. unfold short_lookup in H.
      rewrite (proj2 (with_context_Ok _ _ _ _ _) H). cbn [bind]. now destruct od.
  - split.
    + intros H. apply bind_Ok in H. destruct H as (od & Hd & H). apply with_context_Ok in Hd. destruct od as [d|].
      * destruct (has (cl_style c) allow_sticky) eqn:Es; cbn [andb] in H.
        -- destruct (Z.eqb_spec (vs_max (od_sem d)) 0) as [Em|Em].
           ++ apply IH in H. destruct H as (ms & Hg & ->). exists (mk_mention [c_dash; x] [] [] :: ms).
              split; [eapply sg_flag; eauto|]. rewrite <- app_assoc. reflexivity.
           ++ injection H as <-. exists [mk_mention [c_dash; x] [a :: adjacent] [tok]]. split; [|reflexivity].
              apply (sg_last c tok x (a :: adjacent) (Some d)); [exact Hd|]. right. right. right. exists d. auto.
        -- injection H as <-. exists [mk_mention [c_dash; x] [a :: adjacent] [tok]]. split; [|reflexivity].
           apply (sg_last c tok x (a :: adjacent) (Some d)); auto. right. left. congruence.
      * injection H as <-. exists [mk_mention [c_dash; x] [a :: adjacent] [tok]]. split; [|reflexivity].
        apply (sg_last c tok x (a :: adjacent) None); auto.
    + intros (ms & Hg & ->). inversion Hg as [x0 adj od Hl Hc|x0 y adj d ms' Hs Hl Hm Hg']; subst; unfold short_lookup in Hl;
        rewrite (proj2 (with_context_Ok _ _ _ _ _) Hl); cbn [bind].
      * destruct od as [d|]; [|reflexivity].
        destruct (has (cl_style c) allow_sticky) eqn:Es; cbn [andb]; [|reflexivity].
        destruct (Z.eqb_spec (vs_max (od_sem d)) 0) as [Em|Em]; [|reflexivity]. exfalso.
        destruct Hc as [Hc|[Hc|[Hc|(d' & E & Hc)]]]; try discriminate; [apply Hc; reflexivity|]. injection E as <-. contradiction.
      * rewrite Hs, Hm. cbn [andb Z.eqb]. apply IH. exists ms'. split; auto. rewrite <- app_assoc. reflexivity.
Qed.

Lemma short_group_nonempty tok x a ms : short_group c tok x a ms -> ms <> [].
Proof. intros []; discriminate. Qed.

Definition R_short (tok : str) (ms : list mention) : Prop :=
  exists x adjacent, tok = c_dash :: x :: adjacent /\ x <> c_dash /\ short_group c tok x adjacent ms.
Definition N_short (tok : str) : Prop := ~ exists x adjacent, x <> c_dash /\ tok = c_dash :: x :: adjacent.

Lemma reader_short : reader (parse_short_option c) R_short N_short.
Proof.
  split; [|intros tok ms (x & a & _ & _ & H); exact (short_group_nonempty _ _ _ _ H)].
  intros tok rest r. unfold parse_short_option. cbn [at_index nth_error bind].
  assert (Hskip : N_short tok -> Ok ([], tok :: rest) = Ok r <->
    (exists ms, R_short tok ms /\ r = (map raw_of ms, rest)) \/ (N_short tok /\ r = ([], tok :: rest))).
  { intros HN. split; [intros [= <-]; auto|]. intros [(ms & (x & a & H1 & H2 & _) & _)|[_ ->]]; auto. exfalso. apply HN. eauto. }
  destruct tok as [|c1 [|c2 adj]].
  1-2: apply Hskip; intros (x & a & _ & E); discriminate.
  destruct (char_eqb_spec c1 c_dash) as [->|H1]; cbn [andb].
  2: { apply Hskip. intros (x & a & _ & E). congruence. }
  destruct (char_eqb_spec c2 c_dash) as [->|H2]; cbn [negb].
  { apply Hskip. intros (x & a & Hx & E). congruence. }
  split.
  - intros H. apply bind_Ok in H. destruct H as (os & Hl & H). cbn [erase_front bind] in H. injection H as <-.
    apply short_loop_iff in Hl. destruct Hl as (ms & Hg & ->). left. exists ms. split; [|reflexivity]. exists c2, adj. auto.
  - intros [(ms & (x & a & E & Hx & Hg) & ->)|[HN _]].
    + injection E as <- <-. rewrite (proj2 (short_loop_iff _ _ _ _ _)) by (exists ms; split; [exact Hg|reflexivity]). reflexivity.
    + exfalso. apply HN. eauto.
Qed.

Definition R_slash (tok : str) (ms : list mention) : Prop :=
  exists x adjacent, tok = c_slash :: x :: adjacent /\ ms = [mk_mention [c_dash; x] (perhaps adjacent) [tok]].
Definition N_slash (tok : str) : Prop := ~ exists x adjacent, tok = c_slash :: x :: adjacent.

Lemma reader_slash : reader (parse_dos_option c) R_slash N_slash.
Proof.
  split; [|intros tok ms (x & a & _ & ->); discriminate].
  intros tok rest r. unfold parse_dos_option. cbn [at_index nth_error bind].
  assert (Hskip : N_slash tok -> Ok ([], tok :: rest) = Ok r <->
    (exists ms, R_slash tok ms /\ r = (map raw_of ms, rest)) \/ (N_slash tok /\ r = ([], tok :: rest))).
  { intros HN. split; [intros [= <-]; auto|]. intros [(ms & (x & a & H1 & _) & _)|[_ ->]]; auto. exfalso. apply HN. eauto. }
  destruct tok as [|c1 [|c2 adj]].
  1-2: apply Hskip; intros (x & a & E); discriminate.
  destruct (char_eqb_spec c1 c_slash) as [->|H1].
  2: { apply Hskip. intros (x & a & E). congruence. }
  cbn [erase_front bind]. split.
  - intros [= <-]. left. eexists. split; [exists c2, adj; split; reflexivity|]. cbn. unfold raw_of. cbn. now rewrite perhaps_opt.
  - intros [(ms & (x & a & E & ->) & ->)|[HN _]].
    + injection E as <- <-. cbn. unfold raw_of, raw. cbn. now rewrite perhaps_opt.
    + exfalso. apply HN. eauto.
Qed.

(** ** The list of style parsers *)

Notation R3 := (style_parser * ((str -> list mention -> Prop) * (str -> Prop)))%type.

Fixpoint first_reads (L : list R3) (tok : str) (ms : list mention) : Prop :=
  match L with
  | [] => False
  | (_, (R, N)) :: L' => R tok ms \/ (N tok /\ first_reads L' tok ms)
  end.
Definition none_reads (L : list R3) (tok : str) : Prop := Forall (fun x => snd (snd x) tok) L.
Definition readers (L : list R3) : Prop := Forall (fun x => reader (fst x) (fst (snd x)) (snd (snd x))) L.

Lemma first_nonempty L tok ms : readers L -> first_reads L tok ms -> ms <> [].
Proof.
  induction 1 as [|(p & R & N) L [_ Hr] _ IH]; cbn [first_reads]; [intros []|]. intros [H|[_ H]]; [exact (Hr _ _ H)|auto].
Qed.

Lemma looks_iff L tok b : readers L ->
  looks_like_option (map fst L ++ [parse_terminator]) [tok] = Ok b <->
  (b = true /\ exists ms, first_reads L tok ms) \/ (b = false /\ none_reads L tok).
Proof.
  intros HL. pose proof HL as HL0. revert b. induction HL as [|(p & R & N) L [Hp Hne] _ IH]; intros b.
  - cbn [map app looks_like_option]. unfold parse_terminator. cbn [at_index nth_error bind tl map].
    destruct (str_eqb tok $"--"); cbn [bind is_empty].
    + split; [intros [= <-]; right; split; [reflexivity|constructor]|intros [[_ (ms & [])]|[-> _]]; auto].
    + split; [intros [= <-]; right; split; [reflexivity|constructor]|intros [[_ (ms & [])]|[-> _]]; auto].
  - assert (HL' : readers L) by (now inversion HL0). specialize (IH HL').
    cbn [map app looks_like_option fst first_reads]. cbn [fst snd] in Hp, Hne. split.
    + intros H. apply bind_Ok in H. destruct H as (r & Hr & H). apply Hp in Hr.
      destruct Hr as [(ms & Hm & ->)|[Hn ->]].
      * pose proof (Hne _ _ Hm) as Hnm. destruct ms; [contradiction|]. cbn [map is_empty] in H. injection H as <-. left. eauto.
      * cbn [is_empty] in H. apply IH in H. destruct H as [[-> (ms & H)]|[-> H]]; [left; eauto|right; split; auto].
        constructor; auto.
    + intros [[-> (ms & [H|[Hn H]])]|[-> H]].
      * rewrite (proj2 (Hp tok [] _) (or_introl (ex_intro _ ms (conj H eq_refl)))). cbn [bind].
        pose proof (Hne _ _ H) as Hnm. now destruct ms.
      * rewrite (proj2 (Hp tok [] _) (or_intror (conj Hn eq_refl))). cbn [bind is_empty]. apply IH. eauto.
      * inversion H as [|? ? Hn Hn' ]; subst. cbn [fst snd] in Hn.
        rewrite (proj2 (Hp tok [] _) (or_intror (conj Hn eq_refl))). cbn [bind is_empty]. apply IH. auto.
Qed.

Lemma finish_all_length ps os rest opts args' : os <> [] ->
  finish_all c ps os rest = Ok (opts, args') -> List.length args' <= List.length rest.
Proof.
  intros Hne. destruct (exists_last Hne) as (init & o & ->). intros H.
  apply finish_all_snoc_ok in H. destruct H as (fs & f & _ & _ & Hf). eapply finish_option_length; eauto.
Qed.

Lemma try_iff ps L tok rest opts args' ok : readers L ->
  try_parsers c ps (map fst L ++ [parse_terminator]) (tok :: rest) = Ok (opts, args', ok) <->
  (ok = true /\ exists ms, first_reads L tok ms /\ finish_all c ps (map raw_of ms) rest = Ok (opts, args'))
  \/ (ok = true /\ none_reads L tok /\ tok = dashdash /\ args' = [] /\ opts = map term_opt rest)
  \/ (ok = false /\ none_reads L tok /\ tok <> dashdash /\ args' = tok :: rest /\ opts = []).
Proof.
  intros HL. pose proof HL as HL0. revert opts args' ok.
  induction HL as [|(p & R & N) L [Hp Hne] _ IH]; intros opts args' ok.
  - cbn [map app try_parsers first_reads]. unfold parse_terminator. cbn [at_index nth_error bind tl].
    change $"--" with dashdash. destruct (str_eqb_spec tok dashdash) as [->|Hn]; cbn [bind].
    + change (map (fun a => mk_popt [] INT_MAX [a] [a] false false) rest) with (map term_opt rest).
      rewrite finish_all_term. cbn [bind List.length Nat.eqb]. split.
      * intros [= <- <- <-]. right. left. repeat split; auto. constructor.
      * intros [(_ & ms & [] & _)|[(-> & _ & _ & -> & ->)|(_ & _ & H & _)]]; auto. contradiction.
    + cbn [finish_all bind]. rewrite Nat.eqb_refl. cbn [bind app]. split.
      * intros [= <- <- <-]. right. right. repeat split; auto. constructor.
      * intros [(_ & ms & [] & _)|[(_ & _ & H & _)|(-> & _ & _ & -> & ->)]]; auto. contradiction.
  - assert (HL' : readers L) by (now inversion HL0). specialize (IH HL').
    cbn [map app try_parsers fst first_reads]. cbn [fst snd] in Hp, Hne.
    assert (Hnil : forall x : outcome (list popt * list str * bool),
      (let* r2 := x in let '(f2, a3, o3) := r2 in Ok ([] ++ f2, a3, o3)) = x).
    { intros [[[a b] d]|e|u|]; reflexivity. }
    split.
    + intros H. apply bind_Ok in H. destruct H as (r & Hr & H). apply Hp in Hr. destruct Hr as [(ms & Hm & ->)|[Hn ->]].
      * apply bind_Ok in H. destruct H as ((fin & args2) & Hf & H).
        pose proof (Hne _ _ Hm) as Hnm.
        assert (Hlen : List.length args2 <= List.length rest) by (eapply finish_all_length; [|exact Hf]; destruct ms; [contradiction|discriminate]).
        destruct (Nat.eqb_spec (List.length args2) (List.length (tok :: rest))) as [E|_]; [cbn in E; lia|].
        injection H as <- <- <-. left. eauto.
      * cbn [finish_all bind] in H. rewrite Nat.eqb_refl in H.
        rewrite Hnil in H. apply IH in H.
        destruct H as [(-> & ms & H & Hf)|[(-> & H & H')|(-> & H & H')]].
        -- left. eauto 6.
        -- right. left. repeat split; try apply H'. now constructor.
        -- right. right. repeat split; try apply H'. now constructor.
    + assert (Hpass : N tok -> (let* r := p (tok :: rest) in let (next, args1) := (r : list popt * list str) in
          let* f := finish_all c ps next args1 in let (finished, args2) := (f : list popt * list str) in
          if Nat.eqb (List.length args2) (List.length (tok :: rest)) then
            let* r2 := try_parsers c ps (map fst L ++ [parse_terminator]) args2 in
            let '(finished2, args3, ok) := (r2 : list popt * list str * bool) in Ok (finished ++ finished2, args3, ok)
          else Ok (finished, args2, true)) = try_parsers c ps (map fst L ++ [parse_terminator]) (tok :: rest)).
      { intros Hn. rewrite (proj2 (Hp tok rest _) (or_intror (conj Hn eq_refl))). cbn [bind finish_all].
        rewrite Nat.eqb_refl. apply Hnil. }
      intros [(-> & ms & [H|[Hn H]] & Hf)|[(-> & H & H')|(-> & H & H')]].
      * rewrite (proj2 (Hp tok rest _) (or_introl (ex_intro _ ms (conj H eq_refl)))). cbn [bind]. rewrite Hf. cbn [bind].
        pose proof (Hne _ _ H) as Hnm.
        assert (Hlen : List.length args' <= List.length rest) by (eapply finish_all_length; [|exact Hf]; destruct ms; [contradiction|discriminate]).
        destruct (Nat.eqb_spec (List.length args') (List.length (tok :: rest))) as [E|_]; [cbn in E; lia|]. reflexivity.
      * rewrite (Hpass Hn). apply IH. left. eauto.
      * inversion H as [|? ? Hn Hn']; subst. cbn [fst snd] in Hn. rewrite (Hpass Hn). apply IH. right. left. auto.
      * inversion H as [|? ? Hn Hn']; subst. cbn [fst snd] in Hn. rewrite (Hpass Hn). apply IH. right. right. auto.
Qed.

(** The style parsers of [c] and what they read. *)
Definition parts : list R3 :=
  match cl_additional c with Some f => [(handle_additional_parser f, (R_additional f, N_additional f))] | None => [] end
  ++ (if has (cl_style c) allow_long then [(parse_long_option c, (R_long, N_long))] else [])
  ++ (if has (cl_style c) allow_long_disguise then [(parse_disguised_long_option c, (R_disguised, N_disguised))] else [])
  ++ (if has (cl_style c) allow_short && has (cl_style c) allow_dash_for_short then [(parse_short_option c, (R_short, N_short))] else [])
  ++ (if has (cl_style c) allow_short && has (cl_style c) allow_slash_for_short then [(parse_dos_option c, (R_slash, N_slash))] else []).

Hypothesis no_style_parser : cl_style_parser c = None.

Lemma parts_parsers : style_parsers c = map fst parts ++ [parse_terminator].
Proof.
  unfold style_parsers, parts. rewrite no_style_parser. cbn [app]. rewrite !map_app, <- !app_assoc.
  f_equal; [now destruct (cl_additional c)|]. f_equal; [now destruct (has _ allow_long)|].
  f_equal; [now destruct (has _ allow_long_disguise)|]. f_equal; [now destruct (_ && _)|]. f_equal. now destruct (_ && _).
Qed.

Lemma parts_readers : readers parts.
Proof.
  unfold parts, readers. rewrite !Forall_app. repeat split.
  - destruct (cl_additional c); constructor; [apply reader_additional|constructor].
  - destruct (has _ allow_long); constructor; [apply reader_long|constructor].
  - destruct (has _ allow_long_disguise) eqn:E; constructor; [now apply reader_disguised|constructor].
  - destruct (_ && _); constructor; [apply reader_short|constructor].
  - destruct (_ && _); constructor; [apply reader_slash|constructor].
Qed.

Lemma first_app L1 L2 tok ms :
  first_reads (L1 ++ L2) tok ms <-> first_reads L1 tok ms \/ (none_reads L1 tok /\ first_reads L2 tok ms).
Proof.
  induction L1 as [|(p & R & N) L1 IH]; cbn [app first_reads].
  - split; [right; split; auto; constructor|intros [[]|[_ H]]; auto].
  - rewrite IH. split.
    + intros [H|[Hn [H|[Hn' H]]]]; auto. right. split; auto. now constructor.
    + intros [[H|[Hn H]]|[Hn H]]; auto. inversion Hn; subst. auto.
Qed.

Lemma unclaimed_iff tok : unclaimed c tok <-> none_reads (match cl_additional c with Some f => [(handle_additional_parser f, (R_additional f, N_additional f))] | None => [] end) tok.
Proof.
  unfold unclaimed, claimed. destruct (cl_additional c) as [f|]; split.
  - intros H. constructor; [|constructor]. cbn. unfold N_additional. destruct (f tok) as [n v] eqn:E.
    destruct n as [|x n]; auto. exfalso. apply (H (x :: n) v). exists f. repeat split; auto. discriminate.
  - intros H n v (g & [= <-] & E & Hn). inversion H as [|? ? H1 _]; subst. cbn in H1. unfold N_additional in H1.
    rewrite E in H1. contradiction.
  - constructor.
  - intros _ n v (g & [=] & _).
Qed.

Lemma none_single (b : bool) (x : R3) tok : none_reads (if b then [x] else []) tok <-> (b = true -> snd (snd x) tok).
Proof.
  destruct b; split.
  - intros H _. now inversion H.
  - intros H. constructor; auto.
  - intros _ [=].
  - constructor.
Qed.
Lemma first_single (b : bool) p R N tok ms : first_reads (if b then [(p, (R, N))] else []) tok ms <-> b = true /\ R tok ms.
Proof. destruct b; cbn; intuition discriminate. Qed.

Lemma none_app L1 L2 tok : none_reads (L1 ++ L2) tok <-> none_reads L1 tok /\ none_reads L2 tok.
Proof. apply Forall_app. Qed.

Lemma ordinary_iff tok : ordinary c tok <-> none_reads parts tok.
Proof.
  unfold ordinary, parts. rewrite !none_app, !none_single, unclaimed_iff. cbn [snd]. unfold N_long, N_disguised, N_short, N_slash.
  rewrite !andb_true_iff. split; intros (H1 & H2 & H3 & H4 & H5); (split; [exact H1|]).
  - split; [intros E H; apply H2; auto|]. split; [intros _; exact H3|].
    split; [intros E H; apply H4; destruct E; auto|intros E H; apply H5; destruct E; auto].
  - split; [intros [E H]; exact (H2 E H)|]. split; [intros n m Hd; apply (H3 (proj1 Hd) n m Hd)|].
    split; [intros (E1 & E2 & H); exact (H4 (conj E1 E2) H)|intros (E1 & E2 & H); exact (H5 (conj E1 E2) H)].
Qed.

Lemma not_long_char tok x t : tok = x :: t -> x <> c_dash -> N_long tok.
Proof. intros -> Hx (n & _ & E). injection E as -> _. contradiction. Qed.
Lemma not_long_second tok x t : tok = c_dash :: x :: t -> x <> c_dash -> N_long tok.
Proof. intros -> Hx (n & _ & E). injection E as -> _. contradiction. Qed.

Lemma stands_iff tok ms : stands_for c tok ms <-> first_reads parts tok ms.
Proof.
  unfold parts. rewrite !first_app, !none_single, !first_single, <- unclaimed_iff. cbn [snd]. rewrite !andb_true_iff.
  assert (Hcl : forall tok ms, (exists n v, claimed c tok n v /\ ms = [mk_mention n (perhaps v) []]) <->
    first_reads (match cl_additional c with Some f => [(handle_additional_parser f, (R_additional f, N_additional f))] | None => [] end) tok ms).
  { clear tok ms. intros tok ms. unfold claimed. destruct (cl_additional c) as [f|]; cbn [first_reads].
    - split.
      + intros (n & v & (g & [= <-] & E & Hn) & ->). left. exists n, v. auto.
      + intros [(n & v & E & Hn & ->)|[_ []]]. exists n, v. split; auto. exists f. auto.
    - split; [intros (n & v & (g & [=] & _) & _)|intros []]. }
  rewrite <- Hcl. split.
  - intros [n v H|n vs Hu Hon H|n m d name vs Hu Hd Hb Hl Hw|x a ms' Hu H1 H2 E Hx Hd Hg|x a Hu H1 H2 E Hd].
    + left. eauto.
    + right. split; auto. left. split; auto. exists n, vs. auto.
    + right. split; auto. right. split.
      * intros _. destruct Hd as (_ & Hn & [[E H]|[E _]]).
        -- destruct n as [|y n]; [contradiction|]. exact (not_long_second _ _ _ E H).
        -- eapply not_long_char; [exact E|discriminate].
      * left. split; [apply Hd|]. exists n, m, d, name, vs. auto.
    + right. split; auto. right. split; [intros _; eapply not_long_second; eauto|]. right. split; [intros _; exact Hd|].
      left. split; auto. exists x, a. auto.
    + right. split; auto. right. split; [intros _; eapply not_long_char; [exact E|discriminate]|]. right. split; [intros _; exact Hd|].
      right. split; [intros _ (y & b & _ & E'); rewrite E in E'; discriminate|]. split; auto. exists x, a. auto.
  - intros [(n & v & H & ->)|(Hu & [(Hon & n & vs & H & ->)|(Hnl & [(Hon & n & m & d & name & vs & Hd & Hb & Hl & Hw & ->)
      |(Hnd & [((H1 & H2) & x & a & E & Hx & Hg)|(Hns & (H1 & H2) & x & a & E & ->)])])])].
    + now apply sf_claimed.
    + now apply sf_long.
    + eapply sf_disguised; eauto.
    + eapply sf_short; eauto. intros n m Hd. exact (Hnd (proj1 Hd) n m Hd).
    + eapply sf_slash; eauto. intros n m Hd. exact (Hnd (proj1 Hd) n m Hd).
Qed.


(** ** Completing an option *)

Notation ps := (style_parsers c).

Lemma looks_ps tok b : looks_like_option ps [tok] = Ok b <->
  (b = true /\ exists ms, stands_for c tok ms) \/ (b = false /\ ordinary c tok).
Proof.
  rewrite parts_parsers, (looks_iff _ _ _ parts_readers), ordinary_iff.
  split; (intros [[-> (ms & H)]|H]; [left; split; auto; exists ms; now apply stands_iff|right; exact H]).
Qed.

Lemma grab_iff key n opt other opt' other' : forall te,
  (0 <= n <= Z.of_nat (List.length other))%Z ->
  grab_tokens c ps key te n opt other = Ok (opt', other') <->
  exists ts, other = ts ++ other' /\ opt' = take_tokens ts opt /\ Z.of_nat (List.length ts) = n /\ Forall (may_be_value c) ts.
Proof.
  revert n opt. induction other as [|tok rest IH]; intros n opt te Hn; cbn [grab_tokens].
  - split.
    + intros [= <- <-]. exists []. rewrite take_tokens_nil. repeat split; auto. cbn in Hn |- *. lia.
    + intros (ts & E & -> & _ & _). symmetry in E. apply app_eq_nil in E. destruct E as [-> ->]. now rewrite take_tokens_nil.
  - destruct (Z.eqb_spec n 0) as [->|Hne].
    + split.
      * intros [= <- <-]. exists []. rewrite take_tokens_nil. repeat split; auto.
      * intros (ts & E & -> & El & _). destruct ts; [|cbn in El; lia]. cbn in E. subst. now rewrite take_tokens_nil.
    + assert (Hn' : (0 <= n - 1 <= Z.of_nat (List.length rest))%Z) by (cbn [List.length] in Hn; lia).
      change (mk_popt (po_key opt) (po_pos opt) (po_value opt ++ [tok]) (po_orig opt ++ [tok]) (po_unreg opt) (po_ci opt))
        with (take_tokens [tok] opt).
      split.
      * intros H. apply bind_Ok in H. destruct H as (b & Hb & H). apply with_context_Ok, looks_ps in Hb.
        apply bind_Ok in H. destruct H as (te' & Ht & H). apply IH in H; auto. destruct H as (ts & -> & -> & El & Hf).
        exists (tok :: ts). rewrite take_tokens_app. repeat split; [cbn [List.length]; lia|]. constructor; auto.
        destruct Hb as [[-> Hs]|[-> Ho]]; [right|left; exact Ho].
        split; auto. apply bind_Ok in Ht. destruct Ht as (od & Hl & Ht). apply with_context_Ok in Hl.
        destruct od; [|exact Hl]. discriminate.
      * intros (ts & E & -> & El & Hf). destruct ts as [|t ts]; [cbn in El; lia|]. cbn [app] in E. injection E as <- ->.
        inversion Hf as [|? ? Hv Hf']; subst.
        assert (Hrest : forall te', grab_tokens c ps key te' (Z.of_nat (List.length (tok :: ts)) - 1) (take_tokens [tok] opt) (ts ++ other')
          = Ok (take_tokens (tok :: ts) opt, other')).
        { intros te'. apply IH; auto. exists ts. rewrite take_tokens_app. repeat split; auto. cbn [List.length]. lia. }
        destruct Hv as [Ho|[Hs Hl]].
        -- rewrite (proj2 (with_context_Ok _ _ _ _ _) (proj2 (looks_ps tok false) (or_intror (conj eq_refl Ho)))). cbn [bind]. apply Hrest.
        -- rewrite (proj2 (with_context_Ok _ _ _ _ _) (proj2 (looks_ps tok true) (or_introl (conj eq_refl Hs)))). cbn [bind].
           rewrite Hl. cbn [with_context bind]. apply Hrest.
Qed.

Definition popt_of (i : item) : popt :=
  match i with
  | Option_ k u vs ts => mk_popt k (-1) vs ts u false
  | Argument v t => raw [] [v] [t]
  | Verbatim t => term_opt t
  end.

(** A mention without a name has one value and one token. *)
Definition fine (m : mention) : Prop := mn_name m = [] -> exists v t, m = mk_mention [] [v] [t].

Lemma finish_iff m rest o rest' : fine m ->
  finish_option c ps (raw_of m) rest = Ok (o, rest') <-> exists i, completed c m rest i rest' /\ o = popt_of i.
Proof.
  intros Hf. destruct m as [n vs ts]. unfold finish_option, raw_of, raw.
  cbn [po_key po_pos po_value po_orig po_unreg po_ci mn_name mn_values mn_tokens].
  destruct n as [|x n]; cbn [is_empty].
  - destruct (Hf eq_refl) as (v & t & [= -> ->]). split.
    + intros [= <- <-]. exists (Argument v t). split; [constructor|reflexivity].
    + intros (i & Hc & ->). inversion Hc; subst; try contradiction. reflexivity.
  - set (nm := x :: n) in *. assert (Hne : nm <> []) by discriminate.
    split.
    + intros H. apply bind_Ok in H. destruct H as (xd & Hl & H). apply with_context_Ok in Hl. destruct xd as [d|].
      * destruct (Z.leb_spec (vs_min (od_sem d)) (Z.of_nat (List.length vs) + Z.of_nat (List.length rest))) as [Hle|_]; [|discriminate].
        destruct (negb (is_empty vs) && (vs_max (od_sem d) =? 0)%Z) eqn:Ee; [discriminate|].
        apply grab_iff in H.
        2: { destruct (Z.leb_spec (Z.of_nat (List.length vs)) (vs_min (od_sem d))); lia. }
        destruct H as (taken & -> & -> & El & Hv). exists (Option_ (od_key d nm) false (vs ++ taken) (ts ++ taken)).
        split; [|reflexivity]. econstructor; eauto using is_key_od_key.
        -- intros Hvs Hm. rewrite Hm in Ee. destruct vs; [contradiction|discriminate].
        -- rewrite El. destruct (Z.leb_spec (Z.of_nat (List.length vs)) (vs_min (od_sem d))); lia.
      * destruct (cl_allow_unregistered c) eqn:Eu; [|discriminate]. injection H as <- <-.
        exists (Option_ nm true vs ts). split; [constructor; auto|reflexivity].
    + intros (i & Hc & ->). inversion Hc as [| ? ? ? ? _ Hl Hu|? ? ? d key taken ? _ Hl Hk Hm El Hv]; subst.
      * rewrite Hl. cbn [with_context bind]. rewrite Hu. reflexivity.
      * rewrite Hl. cbn [with_context bind]. apply is_key_unique in Hk. subst key.
        destruct (Z.leb_spec (vs_min (od_sem d)) (Z.of_nat (List.length vs) + Z.of_nat (List.length (taken ++ rest')))) as [Hle|Hlt];
          rewrite app_length in *; [|exfalso; lia].
        destruct (negb (is_empty vs) && (vs_max (od_sem d) =? 0)%Z) eqn:Ee.
        { exfalso. apply andb_true_iff in Ee. destruct Ee as [E1 E2]. apply Z.eqb_eq in E2. apply Hm; auto. now destruct vs. }
        apply grab_iff; [rewrite app_length; destruct (Z.leb_spec (Z.of_nat (List.length vs)) (vs_min (od_sem d))); lia|].
        exists taken. repeat split; auto. rewrite El. destruct (Z.leb_spec (Z.of_nat (List.length vs)) (vs_min (od_sem d))); lia.
Qed.

Lemma completed_nil m i rest' : completed c m [] i rest' -> rest' = [].
Proof.
  intros H. remember [] as e eqn:E. destruct H; auto. apply app_eq_nil in E. now destruct E as [-> ->].
Qed.

Lemma finish_all_iff ms : forall rest os rest', ms <> [] -> Forall fine ms ->
  finish_all c ps (map raw_of ms) rest = Ok (os, rest') <-> exists is, all_completed c ms rest is rest' /\ os = map popt_of is.
Proof.
  induction ms as [|m ms IH]; intros rest os rest' Hne Hf; [contradiction|]. inversion Hf as [|? ? Hm Hf']; subst.
  destruct ms as [|m2 ms].
  - cbn [map finish_all]. split.
    + intros H. apply bind_Ok in H. destruct H as ((o & r) & H & E). cbn [fst snd] in E. injection E as <- <-.
      apply finish_iff in H; auto. destruct H as (i & Hc & ->). exists [i]. split; [constructor; auto|reflexivity].
    + intros (is & Hc & ->). inversion Hc as [? ? i ? Hi|? ? ? ? ? ? _ Hn]; subst; [|inversion Hn].
      rewrite (proj2 (finish_iff m rest (popt_of i) rest' Hm)) by eauto. reflexivity.
  - change (map raw_of (m :: m2 :: ms)) with (raw_of m :: raw_of m2 :: map raw_of ms). rewrite finish_all_cons.
    change (raw_of m2 :: map raw_of ms) with (map raw_of (m2 :: ms)). split.
    + intros H. apply bind_Ok in H. destruct H as ((o & r) & H1 & H). apply finish_iff in H1; auto. destruct H1 as (i & Hi & ->).
      apply bind_Ok in H. destruct H as ((os2 & r2) & H2 & H). cbn [fst snd] in H. injection H as <- <-.
      apply IH in H2; [|discriminate|auto]. destruct H2 as (is & Hc & ->).
      pose proof (completed_nil _ _ _ Hi) as ->. exists (i :: is). split; [constructor; auto|reflexivity].
    + intros (is & Hc & ->). inversion Hc as [|? ? ? i is' ? Hi Hc']; subst.
      rewrite (proj2 (finish_iff m [] (popt_of i) [] Hm)) by eauto. cbn [bind].
      rewrite (proj2 (IH rest (map popt_of is') rest' ltac:(discriminate) Hf')) by eauto. reflexivity.
Qed.

Lemma long_words_fine tok t n vs : long_words tok n vs -> fine (mk_mention n vs [t]).
Proof. intros [m H _|m v _ _] E; cbn in E; [contradiction|]. subst. eauto. Qed.

Lemma stands_fine tok ms : stands_for c tok ms -> Forall fine ms.
Proof.
  intros [n v (f & _ & _ & Hn)|n vs _ _ H|n m d name vs _ _ _ _ Hw|x a ms' _ _ _ _ _ _ Hg|x a _ _ _ _ _].
  - constructor; [|constructor]. intros E. contradiction.
  - constructor; [eapply long_words_fine; eauto|constructor].
  - constructor; [eapply long_words_fine; eauto|constructor].
  - induction Hg; constructor; try constructor; try (intros E; discriminate). auto.
  - constructor; [|constructor]. intros E. discriminate.
Qed.

Lemma stands_nonempty tok ms : stands_for c tok ms -> ms <> [].
Proof. intros H. apply stands_iff in H. exact (first_nonempty _ _ _ parts_readers H). Qed.

(** ** The main loop *)

Lemma step_iff tok rest os args' : main_step c (tok :: rest) = Ok (os, args') <->
  (exists ms is, stands_for c tok ms /\ all_completed c ms rest is args' /\ os = map popt_of is)
  \/ (ordinary c tok /\ tok = dashdash /\ args' = [] /\ os = map popt_of (map Verbatim rest))
  \/ (ordinary c tok /\ tok <> dashdash /\ args' = rest /\ os = [popt_of (Argument tok tok)]).
Proof.
  assert (Hv : map popt_of (map Verbatim rest) = map term_opt rest) by (rewrite map_map; reflexivity).
  rewrite Hv. unfold main_step. pose proof (try_iff ps parts tok rest) as T. rewrite <- parts_parsers in T. split.
  - intros H. apply bind_Ok in H. destruct H as (((o & a) & ok) & Ht & H). apply (T _ _ _ parts_readers) in Ht.
    destruct Ht as [(-> & ms & Hm & Hf)|[(-> & Hn & -> & -> & ->)|(-> & Hn & Hd & -> & ->)]].
    + injection H as <- <-. apply stands_iff in Hm. left. apply finish_all_iff in Hf; eauto using stands_fine, stands_nonempty.
      destruct Hf as (is & Hc & ->). eauto.
    + injection H as <- <-. right. left. rewrite ordinary_iff. auto.
    + cbn [at_index nth_error bind erase_front app] in H. injection H as <- <-. right. right. rewrite ordinary_iff. auto.
  - intros [(ms & is & Hs & Hc & ->)|[(Ho & -> & -> & ->)|(Ho & Hd & -> & ->)]].
    + rewrite (proj2 (T (map popt_of is) args' true parts_readers)); [reflexivity|]. left. split; auto. exists ms.
      split; [now apply stands_iff|]. apply finish_all_iff; eauto using stands_fine, stands_nonempty.
    + rewrite (proj2 (T (map term_opt rest) [] true parts_readers)); [reflexivity|]. right. left. rewrite <- ordinary_iff. auto.
    + rewrite (proj2 (T [] (tok :: rest) false parts_readers)); [reflexivity|]. right. right. rewrite <- ordinary_iff. auto.
Qed.

Lemma completed_length m rest i rest' : completed c m rest i rest' -> List.length rest' <= List.length rest.
Proof. intros []; auto. rewrite app_length. lia. Qed.
Lemma all_completed_length ms rest is rest' : all_completed c ms rest is rest' -> List.length rest' <= List.length rest.
Proof. induction 1; auto. eapply completed_length; eauto. Qed.

Lemma main_iff fuel : forall args os, List.length args <= fuel ->
  main_loop fuel c args = Ok os <-> exists is, consists_of c args is /\ os = map popt_of is.
Proof.
  induction fuel as [|fuel IH]; intros args os Hl; (destruct args as [|tok rest]; cbn [List.length] in Hl; [|try lia]); cbn [main_loop].
  1-2: split; [intros [= <-]; exists []; split; [constructor|reflexivity]|intros (is & H & ->); inversion H; reflexivity].
  split.
  - intros H. apply bind_Ok in H. destruct H as ((o & a) & Hs & H). cbn [fst snd] in H.
    apply bind_Ok in H. destruct H as (os2 & Hm & H). injection H as <-. apply step_iff in Hs.
    destruct Hs as [(ms & is & Hs & Hc & ->)|[(Ho & -> & -> & ->)|(Ho & Hd & -> & ->)]].
    + pose proof (all_completed_length _ _ _ _ Hc). apply IH in Hm; [|lia]. destruct Hm as (is2 & H2 & ->).
      exists (is ++ is2). split; [econstructor; eauto|now rewrite map_app].
    + destruct fuel; injection Hm as <-; (exists (map Verbatim rest); split; [now constructor|apply app_nil_r]).
    + apply IH in Hm; [|lia]. destruct Hm as (is2 & H2 & ->). eexists. split; [apply co_argument; eauto|reflexivity].
  - intros (is & Hc & ->). inversion Hc as [|? ? ms is1 rest' is2 Hs Ha Hc2|? Ho|? ? is2 Ho Hd Hc2]; subst.
    + rewrite (proj2 (step_iff tok rest (map popt_of is1) rest')) by (left; eauto). cbn [bind fst snd].
      pose proof (all_completed_length _ _ _ _ Ha). rewrite (proj2 (IH rest' (map popt_of is2) ltac:(lia))) by eauto.
      cbn [bind]. now rewrite map_app.
    + rewrite (proj2 (step_iff dashdash rest (map popt_of (map Verbatim rest)) [])) by (right; left; auto). cbn [bind fst snd].
      destruct fuel; cbn [main_loop bind]; now rewrite app_nil_r.
    + rewrite (proj2 (step_iff tok rest [popt_of (Argument tok tok)] rest)) by (right; right; auto). cbn [bind fst snd].
      rewrite (proj2 (IH rest (map popt_of is2) ltac:(lia))) by eauto. reflexivity.
Qed.

(** ** Keys, numbers of values *)

Hypothesis named : Forall has_name (cl_desc c).

Definition keyed (i : item) : Prop := match i with Option_ k _ _ _ => k <> [] | _ => True end.

Lemma completed_keyed m rest i rest' : completed c m rest i rest' -> keyed i.
Proof.
  intros [v t r|n vs ts r Hn _ _|n vs ts d key taken r Hn Hl Hk _ _ _]; cbn; auto.
  apply is_key_unique in Hk. subst key. apply key_nonempty; auto. rewrite Forall_forall in named. eapply named, lookup_In, Hl.
Qed.
Lemma all_completed_keyed ms rest is rest' : all_completed c ms rest is rest' -> Forall keyed is.
Proof. induction 1; constructor; auto; eapply completed_keyed; eauto. Qed.
Lemma consists_keyed args is : consists_of c args is -> Forall keyed is.
Proof.
  induction 1; auto.
  - apply Forall_app. split; auto. eapply all_completed_keyed; eauto.
  - apply Forall_forall. intros i Hi. apply in_map_iff in Hi. destruct Hi as (t & <- & _). exact I.
  - constructor; auto. exact I.
Qed.

Definition weight1 (i : item) : nat := match i with Option_ _ _ vs _ => List.length vs | _ => 1 end.
Definition weight (is : list item) : nat := list_sum (map weight1 is).
Definition mweight (ms : list mention) : nat := list_sum (map (fun m => List.length (mn_values m)) ms).

Lemma perhaps_length v : List.length (perhaps v) <= 1.
Proof. destruct v; cbn; lia. Qed.

Lemma stands_weight tok ms : stands_for c tok ms -> mweight ms <= 1.
Proof.
  assert (L : forall tok n vs, long_words tok n vs -> List.length vs <= 1) by (intros ? ? ? []; cbn; lia).
  intros [n v _|n vs _ _ H|n m d name vs _ _ _ _ Hw|x a ms' _ _ _ _ _ _ Hg|x a _ _ _ _ _]; unfold mweight; cbn [map list_sum fold_right mn_values].
  - pose proof (perhaps_length v). lia.
  - apply L in H. lia.
  - apply L in Hw. lia.
  - induction Hg; cbn [map list_sum fold_right mn_values]; [pose proof (perhaps_length adjacent); lia|cbn; exact IHHg].
  - pose proof (perhaps_length a). lia.
Qed.

Lemma completed_weight m rest i rest' : completed c m rest i rest' ->
  weight1 i + List.length rest' <= List.length (mn_values m) + List.length rest.
Proof. intros []; cbn [weight1 mn_values List.length]; rewrite ?app_length; lia. Qed.
Lemma all_completed_weight ms rest is rest' : all_completed c ms rest is rest' ->
  weight is + List.length rest' <= mweight ms + List.length rest.
Proof.
  induction 1 as [m rest i rest' H|m ms rest i is rest' H _ IH]; unfold weight, mweight in *; cbn [map list_sum fold_right];
    apply completed_weight in H; cbn [List.length] in H; unfold list_sum in *; lia.
Qed.
Lemma weight_app a b : weight (a ++ b) = weight a + weight b.
Proof. unfold weight. now rewrite map_app, list_sum_app. Qed.
Lemma consists_weight args is : consists_of c args is -> weight is <= List.length args.
Proof.
  induction 1 as [|tok rest ms is rest' is' Hs Ha _ IH|rest _|tok rest is _ _ _ IH]; auto.
  - rewrite weight_app. apply all_completed_weight in Ha. apply stands_weight in Hs. cbn [List.length]. lia.
  - assert (E : weight (map Verbatim rest) = List.length rest).
    { unfold weight. induction rest; cbn; auto. }
    cbn [List.length]. lia.
  - unfold weight in *. cbn [map list_sum fold_right weight1 List.length]. unfold list_sum in *. lia.
Qed.

(** ** The second pass *)

Notation args_of more := (map (fun vt => Argument (fst vt) (snd vt)) more).
Definition take_pairs (more : list (str * str)) (o : popt) : popt :=
  mk_popt (po_key o) (po_pos o) (po_value o ++ map fst more) (po_orig o ++ map snd more) (po_unreg o) (po_ci o).

Lemma take_pairs_nil o : take_pairs [] o = o.
Proof. unfold take_pairs. cbn [map]. rewrite !app_nil_r. now destruct o. Qed.

Lemma grab_pos_iff is : forall n o o' fol, Forall keyed is -> (INT_MIN < n - Z.of_nat (weight is))%Z ->
  grab_positional n o (map popt_of is) = Ok (o', fol) <->
  exists more is2, is = args_of more ++ is2 /\ o' = take_pairs more o /\ fol = map popt_of is2
    /\ ((0 <= n)%Z -> (Z.of_nat (List.length more) <= n)%Z)
    /\ (n = Z.of_nat (List.length more) \/ ~ starts_with_argument is2).
Proof.
  induction is as [|i is IH]; intros n o o' fol Hk Hn; cbn [map grab_positional].
  - split.
    + intros [= <- <-]. exists [], []. rewrite take_pairs_nil. repeat split; auto. right. intros (v & t & is' & E). discriminate.
    + intros (more & is2 & E & -> & -> & _). symmetry in E. apply app_eq_nil in E. destruct E as [E ->].
      apply map_eq_nil in E. subst. now rewrite take_pairs_nil.
  - inversion Hk as [|? ? Hi Hk']; subst.
    assert (Hstop : (n = 0%Z \/ ~ starts_with_argument (i :: is)) -> Ok (o, popt_of i :: map popt_of is) = Ok (o', fol) <->
      exists more is2, i :: is = args_of more ++ is2 /\ o' = take_pairs more o /\ fol = map popt_of is2
        /\ ((0 <= n)%Z -> (Z.of_nat (List.length more) <= n)%Z)
        /\ (n = Z.of_nat (List.length more) \/ ~ starts_with_argument is2)).
    { intros Hs. split.
      - intros [= <- <-]. exists [], (i :: is). rewrite take_pairs_nil. repeat split; auto.
      - intros (more & is2 & E & -> & -> & Hle & _). destruct more as [|[v t] more].
        + rewrite take_pairs_nil. cbn [map app] in E. now subst is2.
        + exfalso. destruct Hs as [->|Hs]; [cbn [List.length] in Hle; lia|]. apply Hs. injection E as -> _. repeat eexists. }
    destruct (Z.eqb_spec n 0) as [->|Hne]; [apply Hstop; auto|].
    destruct i as [k u vs ts|v t|t]; cbn [popt_of po_key po_pos po_value po_orig raw term_opt is_empty negb].
    + destruct k as [|x k]; [contradiction|]. cbn [is_empty negb]. apply Hstop. right. intros (v & t & is' & E). discriminate.
    + change (Z.eqb (-1) INT_MAX) with false. cbv iota.
      assert (Hw : (INT_MIN < n - 1 - Z.of_nat (weight is))%Z).
      { unfold weight in Hn |- *. cbn [map list_sum fold_right weight1] in Hn. unfold list_sum. lia. }
      destruct (Z.eqb_spec n INT_MIN) as [E|_]; [lia|].
      change (mk_popt (po_key o) (po_pos o) (po_value o ++ [v]) (po_orig o ++ [t]) (po_unreg o) (po_ci o)) with (take_pairs [(v, t)] o).
      rewrite (IH _ _ _ _ Hk' Hw).
      assert (Et : forall more, take_pairs more (take_pairs [(v, t)] o) = take_pairs ((v, t) :: more) o).
      { intros more. unfold take_pairs. cbn. now rewrite <- !app_assoc. }
      split.
      * intros (more & is2 & -> & -> & -> & Hle & Hs). exists ((v, t) :: more), is2. rewrite Et. cbn [map fst snd app List.length].
        repeat split; [lia|]. destruct Hs as [Hs|Hs]; auto. left. lia.
      * intros (more & is2 & E & -> & -> & Hle & Hs). destruct more as [|[v' t'] more].
        -- exfalso. cbn [List.length map app] in *. destruct Hs as [Hs|Hs]; [contradiction|]. subst is2. apply Hs. repeat eexists.
        -- cbn [map fst snd app] in E. injection E as <- <- ->. exists more, is2. rewrite Et. cbn [List.length] in *.
           repeat split; [lia|]. destruct Hs as [Hs|Hs]; auto. left. lia.
    + change (Z.eqb INT_MAX INT_MAX) with true. cbv iota. apply Hstop. right. intros (v & t' & is' & E). discriminate.
Qed.

Hypothesis sized : Forall (fun d => sensible d /\ fits d) (cl_desc c).

Lemma lookup_sized k d : lookup c k = Ok (Some d) -> sensible d /\ fits d.
Proof. intros H. rewrite Forall_forall in sized. eapply sized, lookup_In, H. Qed.

Lemma capacity_cases d n : sensible d -> fits d -> (Z.of_nat n < INT_MAX)%Z ->
  let cond := (Z.ltb (vs_min (od_sem d)) (vs_max (od_sem d)) && Z.ltb (Z.of_nat n) (vs_max (od_sem d)))%bool in
  let m := to_int (vs_max (od_sem d) - Z.of_nat n) in
  (cond = false /\ forall k, capacity d n k <-> k = Some 0)
  \/ (cond = true /\ (0 < m)%Z /\ forall k, capacity d n k <-> k = Some (Z.to_nat m))
  \/ (cond = true /\ m = (-1 - Z.of_nat n)%Z /\ forall k, capacity d n k <-> k = None).
Proof.
  intros [Hmin Hmax] Hf Hn cond m. unfold cond, m.
  assert (HI : (INT_MAX < UINT_MAX)%Z) by (unfold INT_MAX, UINT_MAX; lia).
  destruct (Z.ltb_spec (vs_min (od_sem d)) (vs_max (od_sem d))) as [H1|H1]; cbn [andb].
  2: { left. split; auto. intros k. split; [intros []; auto; lia|intros ->; constructor; auto]. }
  destruct (Z.ltb_spec (Z.of_nat n) (vs_max (od_sem d))) as [H2|H2].
  2: { left. split; auto. intros k. split; [|intros ->; constructor; auto].
       intros [|k' _ E|_ E]; auto; [|unfold fits in Hf; lia]. f_equal. lia. }
  right. destruct Hf as [Hf|Hf].
  - left. rewrite to_int_small by lia. split; auto. split; [lia|]. intros k. split.
    + intros [[]|k' _ E|_ E]; try lia. f_equal. lia.
    + intros ->. apply rm_limited; lia.
  - right. rewrite Hf, to_int_uint by lia. split; auto. split; auto. intros k. split.
    + intros [[]|k' [] E|_ E]; auto; lia.
    + intros ->. apply rm_unlimited; lia.
Qed.

Lemma keyed_args more is : Forall keyed (args_of more ++ is) -> Forall keyed is.
Proof. rewrite Forall_app. tauto. Qed.

Lemma weight_cons i is : weight (i :: is) = weight1 i + weight is.
Proof. reflexivity. Qed.
Lemma weight_args more : weight (args_of more) = List.length more.
Proof. induction more as [|m more IH]; auto. cbn [map]. rewrite weight_cons, IH. reflexivity. Qed.

Lemma merge_iff fuel : forall is os, List.length is <= fuel -> Forall keyed is -> (Z.of_nat (weight is) < INT_MAX)%Z ->
  merge_pass fuel c (map popt_of is) = Ok os <-> exists is', gathered c is is' /\ os = map popt_of is'.
Proof.
  induction fuel as [|fuel IH]; intros is os Hl Hk Hw; (destruct is as [|i is]; cbn [List.length] in Hl; [|try lia]); cbn [map merge_pass].
  1-2: split; [intros [= <-]; exists []; split; [constructor|reflexivity]|intros (is' & H & ->); inversion H; reflexivity].
  inversion Hk as [|? ? Hi Hk']; subst. rewrite weight_cons in Hw.
  assert (Hw' : (Z.of_nat (weight is) < INT_MAX)%Z) by lia.
  destruct i as [k u vs ts|v t|t].
  - cbn [popt_of po_key]. destruct (is_empty k) eqn:Ek; [apply is_empty_true in Ek; contradiction|]. clear Ek.
    destruct (lookup c k) as [xd|e|x|] eqn:El.
    2: { split.
         - intros H. exfalso. apply bind_Ok in H. destruct H as (a & H & _). destruct (has_option_name (ex_class e)); [|discriminate].
           apply bind_Ok in H. destruct H as (b & _ & H). discriminate.
         - intros (is' & H & _). exfalso. inversion H; congruence. }
    2-3: split; [discriminate|intros (is' & H & _); exfalso; inversion H; congruence].
    cbn [bind]. destruct xd as [d|].
    2: { split.
         - intros H. apply bind_Ok in H. destruct H as (r & H & E). injection E as <-. apply IH in H; auto; [|lia].
           destruct H as (is' & Hg & ->). exists (Option_ k u vs ts :: is'). split; [constructor; auto|reflexivity].
         - intros (is' & Hg & ->). inversion Hg as [| | |? ? ? ? ? is2 _ Hg'|? ? ? ? d ? ? ? ? Hl']; subst; [|congruence].
           rewrite (proj2 (IH is (map popt_of is2) ltac:(lia) Hk' Hw')) by eauto. reflexivity. }
    cbn [po_value]. destruct (lookup_sized _ _ El) as [Hs Hf]. cbn [weight1] in Hw.
    pose proof (capacity_cases d (List.length vs) Hs Hf ltac:(lia)) as Hcap. cbv zeta in Hcap.
    assert (Hi' : (INT_MIN = - INT_MAX - 1)%Z) by reflexivity.
    assert (Hgrab : forall m, (Z.ltb (vs_min (od_sem d)) (vs_max (od_sem d)) && Z.ltb (Z.of_nat (List.length vs)) (vs_max (od_sem d)))%bool = true ->
      m = to_int (vs_max (od_sem d) - Z.of_nat (List.length vs)) -> (- 1 - Z.of_nat (List.length vs) <= m)%Z ->
      (forall more : list (str * str), (exists kk, capacity d (List.length vs) kk /\ (forall limit, kk = Some limit -> List.length more <= limit))
                    <-> ((0 <= m)%Z -> (Z.of_nat (List.length more) <= m)%Z)) ->
      (forall more : list (str * str), capacity d (List.length vs) (Some (List.length more)) <-> m = Z.of_nat (List.length more)) ->
      (forall k1 k2, capacity d (List.length vs) k1 -> capacity d (List.length vs) k2 -> k1 = k2) ->
      (let* g := grab_positional m (popt_of (Option_ k u vs ts)) (map popt_of is) in
       let* r := merge_pass fuel c (snd g) in Ok (fst g :: r)) = Ok os <->
      exists is', gathered c (Option_ k u vs ts :: is) is' /\ os = map popt_of is').
    { intros m _ _ Hm Hlim Hex Hfun.
      assert (Hb : (INT_MIN < m - Z.of_nat (weight is))%Z) by lia. split.
      - intros H. apply bind_Ok in H. destruct H as ((o1 & fol) & Hg & H). cbn [fst snd] in H.
        apply grab_pos_iff in Hg; auto. destruct Hg as (more & is2 & -> & -> & -> & Hle & Hst).
        rewrite app_length, map_length in Hl. rewrite weight_app in Hw'.
        apply bind_Ok in H. destruct H as (r & H & E). injection E as <-.
        apply IH in H; [|lia|eapply keyed_args; eauto|lia]. destruct H as (is' & Hg & ->).
        apply Hlim in Hle. destruct Hle as (kk & Hc & Hle).
        exists (Option_ k u (vs ++ map fst more) (ts ++ map snd more) :: is'). split; [|reflexivity].
        eapply ga_known; eauto. destruct Hst as [Hst|Hst]; auto. left. apply Hex in Hst. eauto.
      - intros (is' & Hg & ->). inversion Hg as [| | |? ? ? ? ? ? Hl'|? ? ? ? d' more kk is1 is2 Hl' Hc Hle Hst Hg']; subst; [congruence|].
        rewrite El in Hl'. injection Hl' as <-.
        rewrite app_length, map_length in Hl. rewrite weight_app in Hw'.
        rewrite (proj2 (grab_pos_iff (args_of more ++ is1) m (popt_of (Option_ k u vs ts)) (take_pairs more (popt_of (Option_ k u vs ts))) (map popt_of is1) Hk' Hb)).
        + cbn [bind fst snd]. rewrite (proj2 (IH is1 (map popt_of is2) ltac:(lia) (keyed_args _ _ Hk') ltac:(lia))) by eauto. reflexivity.
        + exists more, is1. repeat split; auto; [apply Hlim; eauto|]. destruct Hst as [->|Hst]; auto. left. now apply Hex. }
    destruct Hcap as [(Ec & Hc)|[(Ec & Hm & Hc)|(Ec & Hm & Hc)]]; rewrite Ec.
    + split.
      * intros H. apply bind_Ok in H. destruct H as (r & H & E). injection E as <-. apply IH in H; auto; [|lia].
        destruct H as (is' & Hg & ->). exists (Option_ k u vs ts :: is'). split; [|reflexivity].
        pose proof (ga_known c k u vs ts d [] (Some 0) is is' El (proj2 (Hc _) eq_refl)) as X. cbn [map app List.length] in X.
        rewrite !app_nil_r in X. apply X; auto. intros limit _. lia.
      * intros (is' & Hg & ->). inversion Hg as [| | |? ? ? ? ? ? Hl'|? ? ? ? d' more kk is1 is2 Hl' Hcc Hle Hst Hg']; subst; [congruence|].
        rewrite El in Hl'. injection Hl' as <-. apply Hc in Hcc. subst kk. specialize (Hle 0 eq_refl).
        destruct more; [|cbn in Hle; lia]. cbn [map app] in *. rewrite !app_nil_r.
        rewrite (proj2 (IH is1 (map popt_of is2) ltac:(lia) Hk' Hw')) by eauto. reflexivity.
    + apply Hgrab; auto.
      * lia.
      * intros more. split.
        -- intros (kk & Hk1 & Hle) _. apply Hc in Hk1. subst kk. specialize (Hle _ eq_refl). lia.
        -- intros H. eexists. split; [apply Hc; reflexivity|]. intros limit [= <-]. lia.
      * intros more. rewrite Hc. split; [intros [= E]; lia|intros E; f_equal; lia].
      * intros k1 k2 H1 H2. apply Hc in H1, H2. congruence.
    + apply Hgrab; auto.
      * lia.
      * intros more. split; [lia|]. intros _. exists None. split; [now apply Hc|discriminate].
      * intros more. rewrite Hc. split; [discriminate|lia].
      * intros k1 k2 H1 H2. apply Hc in H1, H2. congruence.
  - cbn [popt_of raw po_key is_empty]. split.
    + intros H. apply bind_Ok in H. destruct H as (r & H & E). injection E as <-. apply IH in H; auto; [|lia].
      destruct H as (is' & Hg & ->). exists (Argument v t :: is'). split; [constructor; auto|reflexivity].
    + intros (is' & Hg & ->). inversion Hg; subst.
      rewrite (proj2 (IH is (map popt_of is'0) ltac:(lia) Hk' Hw')) by eauto. reflexivity.
  - cbn [popt_of term_opt po_key is_empty]. split.
    + intros H. apply bind_Ok in H. destruct H as (r & H & E). injection E as <-. apply IH in H; auto; [|lia].
      destruct H as (is' & Hg & ->). exists (Verbatim t :: is'). split; [constructor; auto|reflexivity].
    + intros (is' & Hg & ->). inversion Hg; subst.
      rewrite (proj2 (IH is (map popt_of is'0) ltac:(lia) Hk' Hw')) by eauto. reflexivity.
Qed.

Lemma gathered_keyed is is' : gathered c is is' -> Forall keyed is -> Forall keyed is'.
Proof.
  induction 1; intros Hk; inversion Hk; subst; auto; constructor; auto. apply IHgathered. eapply keyed_args; eauto.
Qed.

(** ** Numbers, names, case flags *)

Lemma case_flag_iff o b : case_flag c (po_key o) b <-> b = po_ci (set_case_flag c o).
Proof.
  unfold case_flag, set_case_flag, long_key. cbn [po_ci]. destruct (po_key o) as [|a [|a2 [|d k]]]; cbn [List.length].
  - split; [intros [_ H]; apply H; intros [H' _]; lia|intros ->; split; [intros [H _]; lia|auto]].
  - split; [intros [_ H]; apply H; intros [H' _]; lia|intros ->; split; [intros [H _]; lia|auto]].
  - destruct (char_eqb_spec a c_dash) as [->|Ha]; cbn [negb].
    + split; [intros [_ H]; apply H; intros [_ H']; apply H'; eauto|]. intros ->. split; auto. intros [_ H]. destruct H. eauto.
    + assert (HL : 2 <= 2 /\ ~ (exists x, [a; a2] = [c_dash; x])) by (split; [lia|intros (x & [= E _]); contradiction]).
      split; [intros [H _]; auto|]. intros ->. split; auto. intros H. contradiction.
  - assert (HL : 2 <= S (S (S (List.length k))) /\ ~ (exists x, a :: a2 :: d :: k = [c_dash; x])) by (split; [lia|intros (x & E); discriminate]).
    split; [intros [H _]; auto|]. intros ->. split; auto. intros H. contradiction.
Qed.

Lemma flag_eq key pos vs ts u b : case_flag c key b ->
  set_case_flag c (mk_popt key pos vs ts u false) = mk_popt key pos vs ts u b.
Proof. intros H. pose proof (proj1 (case_flag_iff (mk_popt key pos vs ts u false) b) H) as ->. reflexivity. Qed.
Lemma flag_ex key : exists b, case_flag c key b.
Proof. eexists. apply (case_flag_iff (mk_popt key 0 [] [] false false)). reflexivity. Qed.

Definition naming k os := match cl_positional c with Some p => name_positionals p (Z.of_nat k) os | None => Ok os end.

Lemma returned_iff is : forall k os, Forall keyed is ->
  (let* r := naming k (number_positionals (Z.of_nat k) (map popt_of is)) in Ok (map (set_case_flag c) r)) = Ok os <-> returned c k is os.
Proof.
  induction is as [|i is IH]; intros k os Hk.
  - cbn [map number_positionals]. unfold naming. destruct (cl_positional c); cbn [name_positionals bind map];
      (split; [intros [= <-]; constructor|intros H; now inversion H]).
  - inversion Hk as [|? ? Hi Hk']; subst. cbn [map].
    assert (HS : (Z.of_nat k + 1 = Z.of_nat (S k))%Z) by lia.
    assert (Hopt : forall key u vs ts, i = Option_ key u vs ts -> key <> [] ->
      naming k (number_positionals (Z.of_nat k) (popt_of i :: map popt_of is))
      = let* r := naming k (number_positionals (Z.of_nat k) (map popt_of is)) in Ok (popt_of i :: r)).
    { intros key u vs ts -> Hne. cbn [popt_of number_positionals po_key].
      destruct (is_empty key) eqn:E; [apply is_empty_true in E; contradiction|].
      unfold naming. destruct (cl_positional c); [|reflexivity]. cbn [name_positionals po_pos]. reflexivity. }
    assert (Harg : forall v t o, po_key o = [] -> po_value o = [v] -> po_orig o = [t] -> po_unreg o = false -> po_ci o = false ->
      forall r, naming k (number_positionals (Z.of_nat k) (o :: map popt_of is)) = Ok r <->
      exists name r', argument_name c k name /\ naming (S k) (number_positionals (Z.of_nat (S k)) (map popt_of is)) = Ok r'
        /\ r = mk_popt name (Z.of_nat k) [v] [t] false false :: r').
    { intros v t o E1 E2 E3 E4 E5 r. cbn [number_positionals]. rewrite E1, E2, E3, E4, E5. cbn [is_empty]. rewrite HS.
      unfold naming. destruct (cl_positional c) as [p|] eqn:Ep.
      - cbn [name_positionals po_pos]. destruct (Z.eqb_spec (Z.of_nat k) (-1)) as [X|_]; [lia|].
        rewrite HS. destruct (Z.leb_spec (max_total_count p) (Z.of_nat k)) as [Hle|Hlt].
        + split; [discriminate|]. intros (name & r' & Hn & _). exfalso. inversion Hn; [congruence|]. assert (p0 = p) by congruence. subst. lia.
        + split.
          * intros H. apply bind_Ok in H. destruct H as (name & Hn & H). apply bind_Ok in H. destruct H as (r' & Hr & H).
            injection H as <-. exists name, r'. repeat split; auto. econstructor; eauto.
          * intros (name & r' & Hn & Hr & ->). inversion Hn as [|p' ? Ep' _ Hnm]; [congruence|]. assert (p' = p) by congruence. subst.
            rewrite Hnm. cbn [bind]. rewrite Hr. reflexivity.
      - split.
        + intros [= <-]. eexists _, _. split; [now constructor|]. split; reflexivity.
        + intros (name & r' & Hn & [= <-] & ->). inversion Hn; [reflexivity|congruence]. }
    destruct i as [key u vs ts|v t|t].
    + rewrite (Hopt key u vs ts eq_refl Hi). clear Hopt Harg. split.
      * intros H. apply bind_Ok in H. destruct H as (r & H & E). apply bind_Ok in H. destruct H as (r' & H & E').
        injection E' as <-. cbn [map popt_of] in E. injection E as <-. destruct (flag_ex key) as [b Hb].
        rewrite (flag_eq _ _ _ _ _ _ Hb). constructor; auto. apply IH; auto. rewrite H. reflexivity.
      * intros H. inversion H as [|? ? ? ? ? b ? os' Hb Hr| |]; subst. apply IH in Hr; auto. apply bind_Ok in Hr. destruct Hr as (r & Hr & E).
        rewrite Hr. cbn [bind map popt_of]. injection E as <-. now rewrite (flag_eq _ _ _ _ _ _ Hb).
    + clear Hopt. specialize (Harg v t (popt_of (Argument v t)) eq_refl eq_refl eq_refl eq_refl eq_refl). split.
      * intros H. apply bind_Ok in H. destruct H as (r & H & E). apply Harg in H. destruct H as (name & r' & Hn & H & ->).
        cbn [map] in E. injection E as <-. destruct (flag_ex name) as [b Hb].
        rewrite (flag_eq _ _ _ _ _ _ Hb). constructor; auto. apply IH; auto. rewrite H. reflexivity.
      * intros H. inversion H as [| |? ? ? name b ? os' Hn Hb Hr|]; subst. apply IH in Hr; auto. apply bind_Ok in Hr. destruct Hr as (r & Hr & E).
        rewrite (proj2 (Harg _) (ex_intro _ name (ex_intro _ r (conj Hn (conj Hr eq_refl))))). cbn [bind map].
        injection E as <-. now rewrite (flag_eq _ _ _ _ _ _ Hb).
    + clear Hopt. specialize (Harg t t (popt_of (Verbatim t)) eq_refl eq_refl eq_refl eq_refl eq_refl). split.
      * intros H. apply bind_Ok in H. destruct H as (r & H & E). apply Harg in H. destruct H as (name & r' & Hn & H & ->).
        cbn [map] in E. injection E as <-. destruct (flag_ex name) as [b Hb].
        rewrite (flag_eq _ _ _ _ _ _ Hb). constructor; auto. apply IH; auto. rewrite H. reflexivity.
      * intros H. inversion H as [| | |? ? name b ? os' Hn Hb Hr]; subst. apply IH in Hr; auto. apply bind_Ok in Hr. destruct Hr as (r & Hr & E).
        rewrite (proj2 (Harg _) (ex_intro _ name (ex_intro _ r (conj Hn (conj Hr eq_refl))))). cbn [bind map].
        injection E as <-. now rewrite (flag_eq _ _ _ _ _ _ Hb).
Qed.

Lemma parse_iff args res : (Z.of_nat (List.length args) < INT_MAX)%Z -> parse c args = Ok res <-> means c args res.
Proof.
  intros Hlen. unfold parse, run, means. split.
  - intros H. apply bind_Ok in H. destruct H as (r1 & H1 & H). apply main_iff in H1; [|lia]. destruct H1 as (is & Hc & ->).
    apply bind_Ok in H. destruct H as (r2 & H2 & H).
    pose proof (consists_weight _ _ Hc). pose proof (consists_keyed _ _ Hc) as Hk.
    apply merge_iff in H2; [|rewrite map_length; lia|auto|lia]. destruct H2 as (is' & Hg & ->).
    exists is, is'. repeat split; auto. apply returned_iff; [eapply gathered_keyed; eauto|exact H].
  - intros (is & is' & Hc & Hg & Hr).
    pose proof (consists_weight _ _ Hc). pose proof (consists_keyed _ _ Hc) as Hk.
    rewrite (proj2 (main_iff _ args (map popt_of is) (le_n _))) by eauto. cbn [bind].
    rewrite (proj2 (merge_iff (List.length (map popt_of is)) is (map popt_of is') ltac:(rewrite map_length; lia) Hk ltac:(lia))) by eauto. cbn [bind].
    apply returned_iff in Hr; [exact Hr|eapply gathered_keyed; eauto].
Qed.

End Readers.
