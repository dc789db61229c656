(** Why the command line parser throws. *)

From Coq Require Import List Ascii String NArith ZArith Bool Arith Lia.
From Verif Require Import Base Errors Spec BaseFacts Values OptDesc SpecLookup LookupFacts KeyFacts Positional
  Cmdline SpecCmdline CmdlineFacts RunFacts SpecErrors ThrowFacts SoundFacts PositionalFacts SpecReject.
Import ListNotations.

Definition orig (e : exn) : option str := detail e $"original_token".

(** The error is about an option written in the style [z] and quotes the text [t]. *)
Definition about (z : Z) (e : exn) (t : str) : Prop :=
  has_option_name (ex_class e) = true /\ orig e = Some t /\ ex_style e = z.

Lemma context_class n t z e : ex_class (add_context n t z e) = ex_class e.
Proof. unfold add_context. destruct (has_option_name (ex_class e)); [|reflexivity]. destruct (no_option_name _); reflexivity. Qed.

Lemma context_about n t z e : has_option_name (ex_class e) = true -> about z (add_context n t z e) t.
Proof.
  intros H. split; [now rewrite context_class|]. unfold orig, add_context. rewrite H. cbv zeta. split; [|reflexivity].
  unfold detail. cbn [ex_subst]. apply sm_find_set_same.
Qed.

Lemma with_context_Throw A n t z (x : outcome A) e :
  with_context n t z x = Throw e -> exists e0, x = Throw e0 /\ e = add_context n t z e0.
Proof. destruct x; cbn; try discriminate. intros [= <-]. eauto. Qed.

Lemma at_index_not_throw A (l : list A) i e : at_index l i <> Throw e.
Proof. unfold at_index. destruct (nth_error l i); discriminate. Qed.

Lemma make_about k n t z : has_option_name k = true -> about z (make_exn k n t z) t.
Proof. intros H. split; [exact H|split; reflexivity]. Qed.

Section Reject.
Variable c : cmdline.
Hypothesis Hc : no_custom c.

(** ** The style parsers *)

(** What the parsers themselves object to. *)
Definition misread (tok : str) (e : exn) : Prop :=
  (forall rest e', ex_class e' = ex_class e -> reason c tok rest e') /\ exists t, about (cl_prefix c) e t /\ taken_from c tok t.

Definition blames (tok : str) (e : exn) : Prop :=
  (forall rest e', ex_class e' = ex_class e -> reason c tok rest e') /\ has_option_name (ex_class e) = true.

Lemma misread_blames tok e : misread tok e -> blames tok e.
Proof. intros (Hr & t & (Hn & _) & _). now split. Qed.

Lemma find_reason tok name e :
  looked_up c tok name ->
  lookup c name = Throw e
  \/ find_nothrow (cl_desc c) name false false (has (cl_style c) short_case_insensitive) = Throw e ->
  blames tok e.
Proof.
  intros Hl H. assert (exists alts, e = mk_ambiguous alts) as [alts ->].
  { destruct H as [H|H]; apply find_throw_ambiguous in H; exact H. }
  split; [|reflexivity]. intros rest e' He. eapply rs_ambiguous; eauto.
Qed.

Lemma dangling_misread tok n : dangling c tok n ->
  misread tok (mk_cmdline_syntax empty_adjacent_parameter n n (cl_prefix c)).
Proof.
  intros H. split.
  - intros rest e' He. eapply rs_dangling; [exact H|exact He].
  - exists n. split; [now apply make_about|]. right. right. now left.
Qed.

Lemma long_throw tok rest e :
  has (cl_style c) allow_long = true ->
  parse_long_option c (tok :: rest) = Throw e -> misread tok e.
Proof.
  intros Hl H.
  destruct (parse_long_cases c tok rest)
    as [[E _]|[(n & _ & _ & _ & E)|[(n & v & _ & _ & _ & E)|(n & Et & Hn & E)]]]; rewrite E in H; try discriminate.
  injection H as <-. apply dangling_misread. rewrite Et. now apply dg_long.
Qed.

Lemma short_loop_throw tok : forall adjacent a0 f1 acc e,
  has (cl_style c) allow_short = true -> has (cl_style c) allow_dash_for_short = true ->
  tok = c_dash :: f1 ++ a0 :: adjacent -> hd a0 f1 <> c_dash ->
  (f1 <> [] -> has (cl_style c) allow_sticky = true) ->
  short_loop c tok [c_dash; a0] adjacent acc = Throw e -> misread tok e.
Proof.
  intros adjacent a0 f1 acc e Hs Hd. revert a0 f1 acc. induction adjacent as [|a adj IH]; intros a0 f1 acc Et Hh Hf H.
  all: assert (Hn : names c tok [c_dash; a0])
    by (destruct f1 as [|x f1];
        [now apply (nm_short c tok a0) with (1 := Hs) (2 := Hd) (3 := Et)
        |apply (nm_sticky c tok (x :: f1) a0) with (5 := Hh) (1 := Hs) (2 := Hd) (4 := Et); apply Hf; discriminate]).
  all: cbn [short_loop] in H; apply bind_Throw in H; destruct H as [H|(d & Hx & H)].
  1,3: apply with_context_Throw in H; destruct H as (e0 & H & ->);
    destruct (find_reason tok [c_dash; a0] _ (lu_named _ _ _ Hn) (or_intror H)) as [Hr Ho];
    split; [intros rest e' He; apply Hr; now rewrite context_class in He|];
    exists [c_dash; a0]; split; [now apply context_about|right; now left].
  - destruct d; discriminate.
  - destruct d as [d|]; [|discriminate]. cbv zeta in H.
    destruct (has (cl_style c) allow_sticky) eqn:Es; cbn [andb] in H; [|discriminate].
    destruct (Z.eqb _ _); [|discriminate].
    apply (IH a (f1 ++ [a0])) in H; auto.
    + rewrite <- app_assoc. exact Et.
    + now destruct f1.
Qed.

Lemma short_throw tok rest e :
  has (cl_style c) allow_short = true -> has (cl_style c) allow_dash_for_short = true ->
  parse_short_option c (tok :: rest) = Throw e -> misread tok e.
Proof.
  intros Hs Hd. unfold parse_short_option. cbn [at_index nth_error bind].
  destruct tok as [|c1 [|c2 adj]]; try discriminate.
  destruct (char_eqb_spec c1 c_dash) as [->|H1]; cbn [andb]; [|discriminate].
  destruct (char_eqb_spec c2 c_dash) as [->|H2]; cbn [negb]; [discriminate|].
  intros H. apply bind_Throw in H. destruct H as [H|(r & _ & H)]; [|discriminate].
  apply (short_loop_throw _ _ _ [] _ _ Hs Hd) in H; auto.
Qed.

Lemma disguised_throw tok rest e :
  has (cl_style c) allow_long_disguise = true ->
  parse_disguised_long_option c (tok :: rest) = Throw e -> misread tok e.
Proof.
  intros Hd. unfold parse_disguised_long_option. cbn [at_index nth_error bind].
  destruct tok as [|c1 [|c2 s]]; try discriminate.
  destruct ((char_eqb c1 c_dash && negb (char_eqb c2 c_dash))
            || (has (cl_style c) allow_slash_for_short && char_eqb c1 c_slash)) eqn:Ec; [|discriminate].
  assert (Hb : c1 = c_dash \/ c1 = c_slash).
  { apply orb_true_iff in Ec. destruct Ec as [Ec|Ec]; apply andb_true_iff in Ec; destruct Ec as [E1 E2];
      [left; now apply char_eqb_eq|right; now apply char_eqb_eq]. }
  assert (Htok : c_dash :: (if char_eqb c1 c_slash then c_dash else c1) :: tl (c1 :: c2 :: s)
                 = c_dash :: c_dash :: c2 :: s) by (destruct Hb as [->| ->]; reflexivity).
  cbv zeta. intros H. apply bind_Throw in H. destruct H as [H|(d & _ & H)].
  - apply with_context_Throw in H. destruct H as (e0 & H & ->).
    assert (Hl : looked_up c (c1 :: c2 :: s) match find_char c_eq (c1 :: c2 :: s) with
                 | Some p => substr_n (c1 :: c2 :: s) 1 (p - 1) | None => substr (c1 :: c2 :: s) 1 end).
    { assert (Hc1 : c1 <> c_eq) by (destruct Hb as [->| ->]; discriminate).
      destruct (find_char c_eq (c1 :: c2 :: s)) as [p|] eqn:Ef.
      - apply find_char_Some in Ef. destruct Ef as (a & b & E & Ha & Hp).
        destruct a as [|x a]; [injection E as E _; congruence|]. injection E as <- E.
        apply (lu_disguised _ _ c1 _ b Hd). rewrite E. subst p. cbn [List.length]. unfold substr_n. cbn [skipn].
        replace (S (List.length a) - 1) with (List.length a) by lia. now rewrite firstn_app_exact.
      - apply lu_named. apply (nm_disguised c _ c1); auto; [discriminate|].
        apply find_char_None in Ef. intros Hi. apply Ef. now right. }
    destruct (find_reason _ _ _ Hl (or_introl H)) as [Hr Ho].
    split; [intros r e' He; apply Hr; now rewrite context_class in He|]. exists (c1 :: c2 :: s).
    split; [now apply context_about|now left].
  - destruct d as [d|]; [|discriminate]. cbn [erase_front bind] in H. rewrite Htok in H.
    apply with_context_Throw in H. destruct H as (e0 & H & ->).
    destruct (parse_long_cases c (c_dash :: c_dash :: c2 :: s) rest)
      as [[E _]|[(n & _ & _ & _ & E)|[(n & v & _ & _ & _ & E)|(n & Et & Hn & E)]]]; rewrite E in H; try discriminate.
    injection H as <-. injection Et as Et. split.
    + intros r e' He. rewrite context_class in He. apply (rs_dangling _ _ _ _ n); [|exact He]. rewrite Et. now apply dg_disguised.
    + exists (c_dash :: c_dash :: c2 :: s). split; [now apply context_about|]. right. right. right.
      exists c1, (c2 :: s). auto.
Qed.

Lemma style_throw p tok rest e :
  In p (style_parsers c) -> p (tok :: rest) = Throw e -> misread tok e.
Proof.
  unfold style_parsers. rewrite Hc. cbn [app]. rewrite !in_app_iff.
  intros [Hin|[Hin|[Hin|[Hin|[Hin|Hin]]]]] H.
  - destruct (cl_additional c) as [f|]; [|destruct Hin]. destruct Hin as [<-|[]].
    unfold handle_additional_parser in H. cbn [at_index nth_error bind] in H.
    destruct (f tok) as [a b]. destruct (is_empty a); discriminate.
  - destruct (has (cl_style c) allow_long) eqn:E; [|destruct Hin]. destruct Hin as [<-|[]]. eapply long_throw; eauto.
  - destruct (has (cl_style c) allow_long_disguise) eqn:E; [|destruct Hin]. destruct Hin as [<-|[]].
    eapply disguised_throw; eauto.
  - destruct (has (cl_style c) allow_short) eqn:E; cbn [andb] in Hin; [|destruct Hin].
    destruct (has (cl_style c) allow_dash_for_short) eqn:E2; [|destruct Hin]. destruct Hin as [<-|[]].
    eapply short_throw; eauto.
  - destruct (_ && _); [|destruct Hin]. destruct Hin as [<-|[]].
    unfold parse_dos_option in H. cbn [at_index nth_error bind] in H.
    destruct tok as [|c1 [|c2 s]]; try discriminate. destruct (char_eqb _ _); discriminate.
  - destruct Hin as [<-|[]]. unfold parse_terminator in H. cbn [at_index nth_error bind] in H.
    destruct (str_eqb _ _); discriminate.
Qed.

Lemma looks_throw ps tok e : (forall p, In p ps -> In p (style_parsers c)) ->
  looks_like_option ps [tok] = Throw e -> misread tok e.
Proof.
  induction ps as [|p ps IH]; intros Hin H; cbn [looks_like_option] in H; [discriminate|].
  apply bind_Throw in H. destruct H as [H|((f & t) & Hp & H)].
  - eapply style_throw; eauto. apply Hin. now left.
  - destruct (style_parser_ok c p tok [] f t Hc) as [(-> & ->)|[(-> & Hr)|(-> & -> & ->)]]; auto.
    + apply Hin. now left.
    + cbn [is_empty] in H. apply IH; auto. intros q Hq. apply Hin. now right.
    + apply reads_last in Hr. destruct Hr as (fl & o & -> & _).
      destruct fl; cbn in H; discriminate.
    + cbn [map is_empty] in H.
      assert (Hnil : forall qs e', (forall q, In q qs -> In q (style_parsers c)) -> looks_like_option qs [] <> Throw e').
      { intros qs e' Hq. destruct qs as [|q qs]; cbn [looks_like_option]; [discriminate|].
        assert (E : q [] = Undef UB_index).
        { specialize (Hq q (or_introl eq_refl)). unfold style_parsers in Hq. rewrite Hc in Hq. cbn [app] in Hq.
          rewrite !in_app_iff in Hq. destruct Hq as [Hq|[Hq|[Hq|[Hq|[Hq|Hq]]]]].
          - destruct (cl_additional c); [|destruct Hq]. now destruct Hq as [<-|[]].
          - destruct (has _ allow_long); [|destruct Hq]. now destruct Hq as [<-|[]].
          - destruct (has _ allow_long_disguise); [|destruct Hq]. now destruct Hq as [<-|[]].
          - destruct (_ && _); [|destruct Hq]. now destruct Hq as [<-|[]].
          - destruct (_ && _); [|destruct Hq]. now destruct Hq as [<-|[]].
          - now destruct Hq as [<-|[]]. }
        rewrite E. discriminate. }
      contradict H. apply Hnil. intros q Hq. apply Hin. now right.
Qed.

(** ** Finishing an option *)

(** The whole command line from some token on gives a reason for the exception. *)
Definition justified (args : list str) (e : exn) : Prop :=
  (exists pre tok rest, args = pre ++ tok :: rest /\ reason c tok rest e)
  /\ quotes c args e /\ has_option_name (ex_class e) = true /\ ex_style e = cl_prefix c.

Lemma justified_suffix pre args e : justified args e -> justified (pre ++ args) e.
Proof.
  intros ((p & tok & rest & -> & Hr) & (tk & t & Hi & Ho & Ht) & Hn). split; [|split; auto].
  - exists (pre ++ p), tok, rest. split; auto. now rewrite <- app_assoc.
  - exists tk, t. split; auto. apply in_or_app. now right.
Qed.

Lemma misread_justified tok rest e : misread tok e -> justified (tok :: rest) e.
Proof.
  intros (Hr & t & (Hn & Ho & Hz) & Ht). split; [|split; auto].
  - exists [], tok, rest. auto.
  - exists tok, t. split; [now left|]. auto.
Qed.

Lemma blames_context tok args e n t t0 :
  blames tok e -> In tok args -> In t0 args -> taken_from c t0 t -> justified args (add_context n t (cl_prefix c) e).
Proof.
  intros (Hr & Hn) Hi Hi0 Ht. destruct (context_about n t (cl_prefix c) e Hn) as (Hn' & Ho & Hz).
  split; [|split; auto].
  - apply in_split in Hi. destruct Hi as (l1 & l2 & ->). exists l1, tok, l2. split; auto. apply Hr. apply context_class.
  - exists t0, t. auto.
Qed.

Lemma here_context tok rest e n t t0 :
  reason c tok rest (add_context n t (cl_prefix c) e) -> has_option_name (ex_class e) = true ->
  In t0 (tok :: rest) -> taken_from c t0 t -> justified (tok :: rest) (add_context n t (cl_prefix c) e).
Proof.
  intros Hr Hn Hi0 Ht. destruct (context_about n t (cl_prefix c) e Hn) as (Hn' & Ho & Hz).
  split; [|split; auto].
  - exists [], tok, rest. split; auto.
  - exists t0, t. auto.
Qed.

Section Finish.
Variable tok : str.

(** An option as read from [tok]. *)
Record read_off (o : popt) : Prop := {
  ro_key : po_key o <> [] -> names c tok (po_key o);
  ro_value : po_value o <> [] -> exists v, po_value o = [v] /\ carries c tok v;
  ro_orig : Forall (taken_from c tok) (po_orig o) }.

Lemma grab_throw typed d key : names c tok typed -> lookup c typed = Ok (Some d) -> is_key d typed key ->
  forall other tok_exc n opt mid e t0,
  n = 0%Z \/ (Z.of_nat (List.length mid) + n <= vs_min (od_sem d))%Z -> (0 <= n)%Z ->
  In t0 (tok :: mid ++ other) -> taken_from c t0 tok_exc ->
  grab_tokens c (style_parsers c) key tok_exc n opt other = Throw e -> justified (tok :: mid ++ other) e.
Proof.
  intros Hn Hl Hkey. induction other as [|t other IH]; intros tok_exc n opt mid e t0 Hm H0 Hi Ht H;
    cbn [grab_tokens] in H; [discriminate|].
  destruct (Z.eqb_spec n 0) as [->|Hne]; [discriminate|].
  assert (Hin : In t (tok :: mid ++ t :: other)) by (right; apply in_or_app; right; now left).
  assert (Hself : taken_from c t t) by now left.
  apply bind_Throw in H. destruct H as [H|(fl & _ & H)].
  - apply with_context_Throw in H. destruct H as (e0 & H & ->).
    apply looks_throw in H; auto. apply misread_blames in H. apply (blames_context t _ _ _ _ t0); auto.
  - assert (Hnext : forall te t1, In t1 (tok :: mid ++ t :: other) -> taken_from c t1 te ->
      grab_tokens c (style_parsers c) key te (n - 1)
        (mk_popt (po_key opt) (po_pos opt) (po_value opt ++ [t]) (po_orig opt ++ [t]) (po_unreg opt) (po_ci opt))
        other = Throw e -> justified (tok :: mid ++ t :: other) e).
    { intros te t1 Hi1 Ht1 Hg. replace (mid ++ t :: other) with ((mid ++ [t]) ++ other) in * by now rewrite <- app_assoc.
      eapply IH with (t0 := t1); [| |exact Hi1|exact Ht1|exact Hg]; [|lia].
      rewrite app_length. cbn. lia. }
    apply bind_Throw in H. destruct H as [H|(te & Hte & H)].
    + destruct fl; [|discriminate]. apply bind_Throw in H. destruct H as [H|(od & Hod & H)].
      * apply with_context_Throw in H. destruct H as (e0 & H & ->).
        apply (blames_context t _ _ _ _ t); auto.
        apply (find_reason _ t); [apply lu_itself|now left].
      * destruct od as [d'|]; [|discriminate]. apply with_context_Throw in H. destruct H as (e0 & H & ->).
        injection H as <-. apply with_context_Ok in Hod. apply here_context with (t0 := t); auto.
        apply (rs_missing c tok _ _ typed d key); auto; [lia|]. right. left. exists mid, t, other, d'.
        split; auto. split; [lia|exact Hod].
    + destruct fl.
      * apply bind_Ok in Hte. destruct Hte as (od & _ & Hte). destruct od; [discriminate|].
        injection Hte as <-. eapply Hnext; [exact Hin|exact Hself|exact H].
      * injection Hte as <-. apply (Hnext tok_exc t0); auto.
Qed.

Lemma finish_throw o other rest e :
  read_off o ->
  other = rest \/ (other = [] /\ exists f1 a f2, tok = c_dash :: f1 ++ a :: f2 /\ f2 <> [] /\ po_key o = [c_dash; a]) ->
  finish_option c (style_parsers c) o other = Throw e -> justified (tok :: rest) e.
Proof.
  intros [Hk Hv Ho] Hrest H. unfold finish_option in H.
  destruct (is_empty (po_key o)) eqn:Ek; [discriminate|].
  assert (Hkey : po_key o <> []) by (intros E; rewrite E in Ek; discriminate). specialize (Hk Hkey).
  cbv zeta in H. set (te := match po_orig o with [] => po_key o | t :: _ => t end) in *.
  assert (Hte : taken_from c tok te).
  { unfold te. destruct Ho as [|t ? Ht _]; [right; now left|exact Ht]. }
  assert (Hin : In tok (tok :: rest)) by now left.
  apply bind_Throw in H. destruct H as [H|(xd & Hxd & H)].
  - apply with_context_Throw in H. destruct H as (e0 & H & ->).
    apply (blames_context tok _ _ _ _ tok); auto.
    apply (find_reason _ (po_key o)); [now apply lu_named|now left].
  - apply with_context_Ok in Hxd. destruct xd as [d|].
    + destruct (Z.leb_spec (vs_min (od_sem d))
                  (Z.of_nat (List.length (po_value o)) + Z.of_nat (List.length other))) as [Hle|Hlt].
      * destruct (negb (is_empty (po_value o)) && Z.eqb (vs_max (od_sem d)) 0) eqn:Ex.
        -- apply with_context_Throw in H. destruct H as (e0 & H & ->). injection H as <-.
           apply andb_true_iff in Ex. destruct Ex as [E1 E2]. apply Z.eqb_eq in E2.
           destruct Hv as (v & _ & Hcar); [intros E; rewrite E in E1; discriminate|].
           apply here_context with (t0 := tok); auto. eapply rs_extra; eauto using is_key_od_key.
        -- destruct Hrest as [->|[-> _]]; [|discriminate H].
           apply (grab_throw _ _ _ Hk Hxd (is_key_od_key d (po_key o)) rest _ _ _ [] e tok) in H; auto.
           ++ cbn [List.length]. destruct (Z.leb_spec (Z.of_nat (List.length (po_value o))) (vs_min (od_sem d))); [right; lia|now left].
           ++ destruct (Z.leb_spec (Z.of_nat (List.length (po_value o))) (vs_min (od_sem d))); lia.
      * apply with_context_Throw in H. destruct H as (e0 & H & ->). injection H as <-.
        apply here_context with (t0 := tok); auto.
        apply (rs_missing c tok rest _ (po_key o) d (od_key d (po_key o))); auto using is_key_od_key; [lia|].
        destruct Hrest as [->|[-> (f1 & a & f2 & Et & Hf & Hkk)]]; [left; lia|right; right; eauto 8].
    + destruct (cl_allow_unregistered c) eqn:Eu; [discriminate|].
      apply with_context_Throw in H. destruct H as (e0 & H & ->). injection H as <-.
      apply here_context with (t0 := tok); auto. eapply rs_unknown; eauto.
Qed.

Lemma carries_end a v : tok = a ++ v -> v <> [] -> carries c tok v.
Proof. intros E Hv. split; auto. left. now exists a. Qed.

Lemma opt_value_read a v : tok = a ++ v -> opt_value v <> [] -> exists w, opt_value v = [w] /\ carries c tok w.
Proof.
  unfold opt_value. destruct v as [|x v]; [intros _ H; now destruct H|]. intros E _. exists (x :: v).
  split; [reflexivity|]. apply (carries_end a); [exact E|discriminate].
Qed.

Definition inner (o : popt) : Prop :=
  exists f1 a f2, tok = c_dash :: f1 ++ a :: f2 /\ f2 <> [] /\ po_key o = [c_dash; a].

Lemma reads_shape os : reads c tok os ->
  exists fl o, os = fl ++ [o] /\ read_off o /\ Forall read_off fl /\ Forall inner fl.
Proof.
  intros Hr. pose proof (reads_raw _ _ _ Hr) as Hraw.
  assert (Hkeys : Forall (fun o => po_key o <> [] -> names c tok (po_key o)) os).
  { eapply Forall_impl; [|exact Hraw]. intros o (_ & _ & _ & [(E & _)|(_ & H)]) Hk; [contradiction|exact H]. }
  assert (Hself : Forall (taken_from c tok) [tok]) by (constructor; [now left|constructor]).
  assert (Hone : forall o, os = [o] ->
    (po_value o <> [] -> exists v, po_value o = [v] /\ carries c tok v) -> Forall (taken_from c tok) (po_orig o) ->
    exists fl o', os = fl ++ [o'] /\ read_off o' /\ Forall read_off fl /\ Forall inner fl).
  { intros o E Hv Ho. exists [], o. split; [exact E|]. split; [|split; constructor]. split; auto.
    rewrite E in Hkeys. now inversion Hkeys. }
  destruct Hr as [name Hl Et Hne Hn|name v Hl Et Hn Hv|flags x adj Hs Hd Et Hh Hst Hf|x adj Hs Hd Et
                 |b name d Hd Et Hne Hn Hb Hl|b name v d Hd Et Hn Hv Hb Hl|f name v Ea Ef Hne].
  - apply Hone with (1 := eq_refl); auto. intros H. now destruct H.
  - apply Hone with (1 := eq_refl); auto. intros _. exists v. split; [reflexivity|].
    apply (carries_end (c_dash :: c_dash :: name ++ [c_eq])); auto. rewrite Et. cbn. now rewrite <- app_assoc.
  - apply Forall_app in Hkeys. destruct Hkeys as [Hk1 Hk2]. inversion Hk2 as [|? ? Hk3 _]; subst.
    eexists _, _. split; [reflexivity|]. split; [|split].
    + split; auto. intros H. apply (opt_value_read (c_dash :: flags ++ [x])) in H; auto.
      cbn. now rewrite <- app_assoc.
    + rewrite Forall_forall in Hk1 |- *. intros o Ho. pose proof (Hk1 o Ho) as Hk.
      apply in_map_iff in Ho. destruct Ho as (a & <- & _). split; [exact Hk| |constructor]. intros H. now destruct H.
    + apply Forall_forall. intros o Ho. apply in_map_iff in Ho. destruct Ho as (a & <- & Ha).
      apply in_split in Ha. destruct Ha as (g1 & g2 & ->). exists g1, a, (g2 ++ x :: adj).
      split; [rewrite Et; now rewrite <- app_assoc|]. split; [now destruct g2|reflexivity].
  - apply Hone with (1 := eq_refl); auto. intros H. apply (opt_value_read [c_slash; x]) in H; auto.
  - apply Hone with (1 := eq_refl); auto; [intros H; now destruct H|]. constructor; [|constructor].
    right. right. right. exists b, name. auto.
  - apply Hone with (1 := eq_refl); auto.
    + intros _. exists v. split; [reflexivity|]. apply (carries_end (b :: name ++ [c_eq])); auto.
      rewrite Et. cbn. now rewrite <- app_assoc.
    + constructor; [|constructor]. right. right. right. exists b, (name ++ c_eq :: v). auto.
  - apply Hone with (1 := eq_refl); [|constructor]. cbn. unfold opt_value. destruct v as [|y v]; [intros H; now destruct H|].
    intros _. exists (y :: v). split; [reflexivity|]. split; [discriminate|]. right. eauto.
Qed.

Lemma finish_all_throw os rest e :
  reads c tok os -> finish_all c (style_parsers c) os rest = Throw e -> justified (tok :: rest) e.
Proof.
  intros Hr H. destruct (reads_shape _ Hr) as (fl & o & -> & Ho & Hfl & Hin). clear Hr.
  induction fl as [|x fl IH].
  - cbn [app finish_all] in H. apply bind_Throw in H. destruct H as [H|(r & _ & H)]; [|discriminate].
    eapply finish_throw; eauto.
  - assert (E : finish_all c (style_parsers c) ((x :: fl) ++ [o]) rest =
       let* r := finish_option c (style_parsers c) x [] in
       let* rs := finish_all c (style_parsers c) (fl ++ [o]) rest in Ok (fst r :: fst rs, snd rs))
      by (destruct fl; reflexivity).
    rewrite E in H. inversion Hfl; inversion Hin; subst. apply bind_Throw in H. destruct H as [H|(r & _ & H)].
    + eapply finish_throw; eauto.
    + apply bind_Throw in H. destruct H as [H|(rs & _ & H)]; [auto|discriminate].
Qed.

Lemma try_throw todo rest e : (forall p, In p todo -> In p (style_parsers c)) ->
  try_parsers c (style_parsers c) todo (tok :: rest) = Throw e -> justified (tok :: rest) e.
Proof.
  induction todo as [|p todo IH]; intros Hin H; cbn [try_parsers] in H; [discriminate|].
  apply bind_Throw in H. destruct H as [H|((next & args1) & Hp & H)].
  - apply misread_justified. eapply style_throw; eauto. apply Hin. now left.
  - destruct (style_parser_ok c p tok rest next args1 Hc) as [[-> ->]|[[-> Hr]|(-> & -> & ->)]];
      auto; try (apply Hin; now left).
    + cbn [finish_all bind] in H. rewrite Nat.eqb_refl in H. apply bind_Throw in H.
      destruct H as [H|(((f & a) & ok) & _ & H)]; [|discriminate]. apply IH; auto. intros q Hq. apply Hin. now right.
    + apply bind_Throw in H. destruct H as [H|((fin & args2) & Hf & H)]; [now apply (finish_all_throw next)|].
      pose proof (reads_finish_length _ _ _ _ _ _ _ Hr Hf) as Hlen.
      destruct (Nat.eqb_spec (List.length args2) (List.length (tok :: rest))) as [E|E]; [|discriminate].
      cbn in E. lia.
    + rewrite finish_all_term in H. cbn in H. discriminate.
Qed.

Lemma main_step_throw rest e : main_step c (tok :: rest) = Throw e -> justified (tok :: rest) e.
Proof.
  intros H. unfold main_step in H. cbv zeta in H. apply bind_Throw in H.
  destruct H as [H|(((o & a) & ok) & _ & H)]; [now apply (try_throw (style_parsers c))|].
  destruct ok; [discriminate|]. apply bind_Throw in H. destruct H as [H|(t & _ & H)].
  - now apply at_index_not_throw in H.
  - apply bind_Throw in H. destruct H as [H|(t' & _ & H)]; [|discriminate]. now destruct a.
Qed.
End Finish.

Lemma finish_suffix ps o other o' other' :
  finish_option c ps o other = Ok (o', other') -> exists ts, other = ts ++ other'.
Proof.
  intros H. apply finish_option_ok in H.
  destruct H as [(_ & _ & ->)|[(_ & _ & _ & _ & ->)|(_ & d & ts & _ & -> & _)]]; [now exists []|now exists []|eauto].
Qed.

Lemma step_suffix tok rest opts args' : step_result c tok rest opts args' -> exists ts, rest = ts ++ args'.
Proof.
  intros [(os & Hr & Hf)|[(_ & -> & _)|(_ & ->)]].
  - destruct (reads_last _ _ _ Hr) as (fl & o & -> & _). apply finish_all_snoc_ok in Hf.
    destruct Hf as (fs & f & _ & _ & Hf). eapply finish_suffix; eauto.
  - exists rest. now rewrite app_nil_r.
  - now exists [].
Qed.

Lemma main_loop_throw fuel args e : main_loop fuel c args = Throw e -> justified args e.
Proof.
  revert args; induction fuel as [|fuel IH]; intros [|tok rest] H; cbn [main_loop] in H; try discriminate.
  apply bind_Throw in H. destruct H as [H|((o & a) & Ho & H)]; [now apply main_step_throw|].
  cbn [fst snd] in H. apply bind_Throw in H. destruct H as [H|(r & _ & H)]; [|discriminate].
  apply main_step_ok in Ho; [|exact Hc]. destruct (step_suffix _ _ _ _ Ho) as (ts & ->).
  apply IH in H. apply (justified_suffix (tok :: ts)) in H. exact H.
Qed.

(** ** The second pass *)

(** An option of the first pass: what its key can be ambiguous for, and where its tokens come from. *)
Definition traced (args : list str) (o : popt) : Prop :=
  (po_key o <> [] -> forall e, lookup c (po_key o) = Throw e -> exists tok, In tok args /\ blames tok e)
  /\ Forall (fun t => exists tok, In tok args /\ taken_from c tok t) (po_orig o).

Lemma traced_mono args args' o : (forall x, In x args -> In x args') -> traced args o -> traced args' o.
Proof.
  intros Hsub (H1 & H2). split.
  - intros Hk e He. destruct (H1 Hk e He) as (tok & Hi & Hb). eauto.
  - eapply Forall_impl; [|exact H2]. intros t (tok & Hi & Ht). eauto.
Qed.

Lemma finish_traced tok o other o' other' :
  read_off tok o -> finish_option c (style_parsers c) o other = Ok (o', other') -> traced (tok :: other) o'.
Proof.
  intros [Hk Hv Ho] H. apply finish_option_ok in H.
  assert (Horig : Forall (fun t => exists tk, In tk (tok :: other) /\ taken_from c tk t) (po_orig o)).
  { eapply Forall_impl; [|exact Ho]. intros t Ht. exists tok. split; [now left|exact Ht]. }
  destruct H as [(E & -> & _)|[(E & Hl & _ & -> & _)|(E & d & ts & Hl & -> & -> & _)]].
  - split; auto. intros X. contradiction.
  - split; auto. cbn. intros _ e He. congruence.
  - split; cbn.
    + intros _ e He. exists tok. split; [now left|]. apply (find_reason _ (od_key d (po_key o))); [|now left].
      apply (lu_key _ _ (po_key o) d); auto. apply is_key_od_key.
    + apply Forall_app. split; auto. apply Forall_forall. intros t Ht. exists t. split; [|now left].
      right. apply in_or_app. now left.
Qed.

Lemma step_traced tok rest opts args' :
  step_result c tok rest opts args' -> Forall (traced (tok :: rest)) opts.
Proof.
  intros [(os & Hr & Hf)|[(-> & -> & ->)|(-> & ->)]].
  - destruct (reads_shape _ _ Hr) as (fl & o & -> & Ho & Hfl & _). apply finish_all_snoc_ok in Hf.
    destruct Hf as (fs & f & -> & Hfs & Hf). apply Forall_app. split.
    + clear Hf Hr. induction Hfs as [|x y l l' Hxy Hll IH]; [constructor|]. inversion Hfl; subst. constructor; auto.
      apply (traced_mono [tok]); [intros z [<-|[]]; now left|]. eapply finish_traced; eauto.
    + constructor; [|constructor]. eapply finish_traced; eauto.
  - apply Forall_forall. intros o Ho. apply in_map_iff in Ho. destruct Ho as (t & <- & Ht). split.
    + intros H. now destruct H.
    + constructor; [|constructor]. exists t. split; [now right|now left].
  - constructor; [|constructor]. split; [intros H; now destruct H|].
    constructor; [|constructor]. exists tok. split; [now left|now left].
Qed.

Lemma steps_traced args opts : steps c args opts -> Forall (traced args) opts.
Proof.
  intros H. induction H as [|tok rest opts args' more Hstep H IH]; [constructor|].
  destruct (step_suffix _ _ _ _ Hstep) as (ts & ->). apply Forall_app. split; [eapply step_traced; eauto|].
  eapply Forall_impl; [|exact IH]. intros o. apply traced_mono. intros x Hx. right. apply in_or_app. now right.
Qed.

Lemma grab_positional_not_throw fs : forall n o e, grab_positional n o fs <> Throw e.
Proof.
  induction fs as [|f fs IH]; intros n o e; cbn [grab_positional]; [discriminate|].
  destruct (Z.eqb n 0); [discriminate|]. destruct (negb _); [discriminate|]. destruct (Z.eqb _ INT_MAX); [discriminate|].
  destruct (po_value f) as [|? [|? ?]]; try discriminate. destruct (po_orig f) as [|? [|? ?]]; try discriminate.
  destruct (Z.eqb n INT_MIN); [discriminate|]. apply IH.
Qed.

Lemma merge_throw args fuel : forall os e,
  Forall (traced args) os -> merge_pass fuel c os = Throw e -> justified args e.
Proof.
  induction fuel as [|fuel IH]; intros [|o os] e Ht H; cbn [merge_pass] in H; try discriminate.
  inversion Ht as [|? ? Ho Hos]; subst.
  destruct (is_empty (po_key o)) eqn:Ek.
  { apply bind_Throw in H. destruct H as [H|(r & _ & H)]; [eauto|discriminate]. }
  apply is_empty_false in Ek. apply bind_Throw in H. destruct H as [H|(xd & _ & H)].
  - destruct (lookup c (po_key o)) as [xd|e0| |] eqn:El; try discriminate.
    destruct Ho as (H1 & H2). destruct (H1 Ek e0 El) as (tok & Hi & Hb). rewrite (proj2 Hb) in H.
    apply bind_Throw in H. destruct H as [H|(t & Hidx & [= <-])]; [now apply at_index_not_throw in H|].
    destruct (po_orig o) as [|t' ts]; [discriminate|]. injection Hidx as <-. inversion H2 as [|? ? (tk & Hik & Htk) _]; subst.
    apply (blames_context tok _ _ _ _ tk); auto.
  - assert (Hsame : (let* r := merge_pass fuel c os in Ok (o :: r)) = Throw e -> justified args e).
    { intros Hx. apply bind_Throw in Hx. destruct Hx as [Hx|(r & _ & Hx)]; [eauto|discriminate]. }
    destruct xd as [d|]; [|auto]. cbv zeta in H. destruct (_ && _); [|auto].
    apply bind_Throw in H. destruct H as [H|((g & left) & Hg & H)]; [now apply grab_positional_not_throw in H|].
    cbn [fst snd] in H. apply bind_Throw in H. destruct H as [H|(r & _ & H)]; [|discriminate].
    apply grab_positional_ok in Hg. destruct Hg as (taken & -> & _). apply Forall_app in Hos. eapply IH; [|exact H]. tauto.
Qed.

Lemma name_positionals_throw p rs : forall k e, name_positionals p k rs = Throw e ->
  (forall x i e', p = x -> name_for_position x i <> Throw e') ->
  e = plain_exn too_many_positional_options_error.
Proof.
  induction rs as [|o rs IH]; intros k e H Hn; cbn [name_positionals] in H; [discriminate|].
  destruct (Z.eqb _ _).
  - apply bind_Throw in H. destruct H as [H|(r & _ & H)]; [eauto|discriminate].
  - destruct (Z.leb _ _); [now injection H as <-|]. apply bind_Throw in H. destruct H as [H|(n & _ & H)].
    + now apply (Hn p k e eq_refl) in H.
    + apply bind_Throw in H. destruct H as [H|(r & _ & H)]; [eauto|discriminate].
Qed.

Lemma run_throw args e :
  parse c args = Throw e ->
  justified args e
  \/ exists p r, cl_positional c = Some p /\ parse (with_positional c None) args = Ok r
       /\ (max_total_count p < count_positionals r)%Z /\ e = plain_exn too_many_positional_options_error.
Proof.
  intros H. pose proof H as Hrun. unfold parse, run in H. apply bind_Throw in H.
  destruct H as [H|(r1 & H1 & H)]; [left; eapply main_loop_throw; eauto|].
  apply bind_Throw in H. destruct H as [H|(r2 & H2 & H)].
  { left. eapply merge_throw; [|exact H]. apply steps_traced. eapply main_loop_steps; eauto. }
  right. apply bind_Throw in H. destruct H as [H|(r4 & _ & H)]; [|discriminate].
  destruct (cl_positional c) as [p|] eqn:Ep; [|discriminate].
  assert (Ec : with_positional c (Some p) = c) by (rewrite <- Ep; now destruct c).
  destruct (naming_lemma c p args Hc) as (N1 & N2 & N3). rewrite Ec in N1, N2, N3.
  assert (exists r, parse (with_positional c None) args = Ok r) as [r Hr].
  { unfold parse, run. rewrite (np_main c p), Ec, H1. cbn [bind]. rewrite (np_merge c p), Ec, H2. cbn [bind with_positional cl_positional]. eauto. }
  exists p, r. split; [reflexivity|]. split; [exact Hr|].
  destruct (Z.le_gt_cases (count_positionals r) (max_total_count p)) as [Hle|Hgt].
  - destruct (N1 r Hr Hle) as (r' & E & _). congruence.
  - split; [exact Hgt|]. rewrite (N2 r Hr) in Hrun by lia. congruence.
Qed.
End Reject.
