(** Structure of the command line parser: what one token is read as, what an option
    may take, and what the passes over the result do. *)

From Coq Require Import List Ascii String NArith ZArith Bool Arith Lia.
From Verif Require Import Base Errors Spec BaseFacts Values OptDesc SpecLookup LookupFacts
  Positional Cmdline.
Import ListNotations.

(** No style parser supplied by the user. *)
Definition no_custom (c : cmdline) : Prop := cl_style_parser c = None.

(** An option as the style parsers produce it. *)
Definition raw (key : str) (value orig : list str) : popt :=
  mk_popt key (-1) value orig false false.

Definition opt_value (adjacent : str) : list str := if is_empty adjacent then [] else [adjacent].

(** Option produced for a token after "--", or for a token nobody recognises. *)
Definition term_opt (a : str) : popt := mk_popt [] INT_MAX [a] [a] false false.
Definition pos_opt (a : str) : popt := raw [] [a] [a].

(** ** What one token is read as *)

(** The letters of a sticky group that are split off: each is a flag. *)
Definition flag_letter (c : cmdline) (a : char) : Prop :=
  exists d, find_nothrow (cl_desc c) [c_dash; a] false false
              (has (cl_style c) short_case_insensitive) = Ok (Some d)
            /\ vs_max (od_sem d) = 0%Z.

Inductive reads (c : cmdline) (tok : str) : list popt -> Prop :=
| reads_long name :
    has (cl_style c) allow_long = true ->
    tok = c_dash :: c_dash :: name -> name <> [] -> without c_eq name ->
    reads c tok [raw name [] [tok]]
| reads_long_eq name v :
    has (cl_style c) allow_long = true ->
    tok = c_dash :: c_dash :: name ++ c_eq :: v -> without c_eq name -> v <> [] ->
    reads c tok [raw name [v] [tok]]
| reads_short flags x adj :
    has (cl_style c) allow_short = true -> has (cl_style c) allow_dash_for_short = true ->
    tok = c_dash :: flags ++ x :: adj ->
    hd x flags <> c_dash ->
    (flags <> [] -> has (cl_style c) allow_sticky = true) ->
    Forall (flag_letter c) flags ->
    reads c tok (map (fun a => raw [c_dash; a] [] []) flags ++ [raw [c_dash; x] (opt_value adj) [tok]])
| reads_slash x adj :
    has (cl_style c) allow_short = true -> has (cl_style c) allow_slash_for_short = true ->
    tok = c_slash :: x :: adj ->
    reads c tok [raw [c_dash; x] (opt_value adj) [tok]]
| reads_disguised_name b name d :
    has (cl_style c) allow_long_disguise = true ->
    tok = b :: name -> name <> [] -> without c_eq name ->
    (b = c_dash /\ hd c_dash name <> c_dash
     \/ b = c_slash /\ has (cl_style c) allow_slash_for_short = true) ->
    lookup c name = Ok (Some d) ->
    reads c tok [raw name [] [c_dash :: c_dash :: name]]
| reads_disguised_eq b name v d :
    has (cl_style c) allow_long_disguise = true ->
    tok = b :: name ++ c_eq :: v -> without c_eq name -> v <> [] ->
    (b = c_dash /\ hd c_eq name <> c_dash
     \/ b = c_slash /\ has (cl_style c) allow_slash_for_short = true) ->
    lookup c name = Ok (Some d) ->
    reads c tok [raw name [v] [c_dash :: c_dash :: name ++ c_eq :: v]]
| reads_additional f name v :
    cl_additional c = Some f -> f tok = (name, v) -> name <> [] ->
    reads c tok [raw name (opt_value v) []].

Lemma parse_long_cases c tok rest :
  (** not a long option *)
  (parse_long_option c (tok :: rest) = Ok ([], tok :: rest)
   /\ (forall name, tok = c_dash :: c_dash :: name -> name = []))
  \/ (exists name, tok = c_dash :: c_dash :: name /\ name <> [] /\ without c_eq name
        /\ parse_long_option c (tok :: rest) = Ok ([raw name [] [tok]], rest))
  \/ (exists name v, tok = c_dash :: c_dash :: name ++ c_eq :: v /\ without c_eq name /\ v <> []
        /\ parse_long_option c (tok :: rest) = Ok ([raw name [v] [tok]], rest))
  \/ (exists name, tok = c_dash :: c_dash :: name ++ [c_eq] /\ without c_eq name
        /\ parse_long_option c (tok :: rest)
           = Throw (mk_cmdline_syntax empty_adjacent_parameter name name (cl_prefix c))).
Proof.
  unfold parse_long_option. cbn [at_index nth_error bind].
  destruct tok as [|c1 [|c2 [|c3 s]]].
  1-3: left; split; [reflexivity|].
  1-3: intros name E; try discriminate; injection E; auto.
  destruct (char_eqb_spec c1 c_dash) as [->|H1]; cbn [andb].
  2: { left. split; [reflexivity|]. intros name E. congruence. }
  destruct (char_eqb_spec c2 c_dash) as [->|H2].
  2: { left. split; [reflexivity|]. intros name E. congruence. }
  right. set (nm := c3 :: s).
  assert (Hf : forall p, find_char c_eq (c_dash :: c_dash :: nm) = Some p ->
                 exists a b, nm = a ++ c_eq :: b /\ without c_eq a /\ p = S (S (List.length a))).
  { intros p E. apply find_char_Some in E. destruct E as (a & b & E & Ha & <-).
    destruct a as [|x1 [|x2 a]]; try discriminate. injection E as -> -> E.
    exists a, b. repeat split; auto. intros Hin. apply Ha. simpl. auto. }
  destruct (find_char c_eq (c_dash :: c_dash :: nm)) as [p|] eqn:Ef.
  - destruct (Hf p eq_refl) as (a & b & E & Ha & ->).
    assert (En : substr_n (c_dash :: c_dash :: nm) 2 (S (S (List.length a)) - 2) = a).
    { unfold substr_n. simpl skipn. rewrite E.
      replace (S (S (List.length a)) - 2) with (List.length a) by lia. apply firstn_app_exact. }
    assert (Ev : substr (c_dash :: c_dash :: nm) (S (S (List.length a)) + 1) = b).
    { unfold substr. rewrite E. replace (S (S (List.length a)) + 1) with (S (S (S (List.length a)))) by lia.
      change (skipn (S (List.length a)) (a ++ [c_eq] ++ b) = b).
      replace (S (List.length a)) with (List.length (a ++ [c_eq])) by (rewrite app_length; simpl; lia).
      rewrite app_assoc. apply skipn_app_exact. }
    rewrite En, Ev. destruct b as [|b1 b].
    + right; right. exists a. unfold nm in *. rewrite E. cbn [is_empty bind]. repeat split; auto.
    + right; left. exists a, (b1 :: b). unfold nm in *. rewrite E. cbn [is_empty bind erase_front].
      repeat split; auto. discriminate.
  - left. exists nm. apply find_char_None in Ef. repeat split; auto.
    + discriminate.
    + intros Hin. apply Ef. simpl. auto.
Qed.

Lemma parse_long_nil c : parse_long_option c [] = Undef UB_index.
Proof. reflexivity. Qed.

Lemma short_loop_ok c tok name adjacent acc opts :
  short_loop c tok name adjacent acc = Ok opts ->
  forall a0, name = [c_dash; a0] ->
  exists flags x adj,
    a0 :: adjacent = flags ++ x :: adj
    /\ opts = acc ++ map (fun a => raw [c_dash; a] [] []) flags
                  ++ [raw [c_dash; x] (opt_value adj) [tok]]
    /\ Forall (flag_letter c) flags
    /\ (flags <> [] -> has (cl_style c) allow_sticky = true).
Proof.
  revert name acc; induction adjacent as [|a adj IH]; intros name acc H a0 ->; cbn [short_loop] in H.
  - apply bind_Ok in H. destruct H as (d & Hd & H).
    assert (E : opts = acc ++ [raw [c_dash; a0] [] [tok]]) by (destruct d; injection H as <-; reflexivity).
    exists [], a0, []. repeat split; auto; congruence.
  - apply bind_Ok in H. destruct H as (d & Hd & H). apply with_context_Ok in Hd.
    destruct d as [d|].
    + destruct (has (cl_style c) allow_sticky) eqn:Es; cbn [andb] in H.
      * destruct (Z.eqb_spec (vs_max (od_sem d)) 0) as [Em|Em].
        -- destruct (IH _ _ H a eq_refl) as (flags & x & adj' & E1 & E2 & E3 & E4).
           exists (a0 :: flags), x, adj'. repeat split.
           ++ simpl. now rewrite E1.
           ++ rewrite E2, <- app_assoc. reflexivity.
           ++ constructor; auto. exists d; auto.
        -- injection H as <-. exists [], a0, (a :: adj). repeat split; auto.
      * injection H as <-. exists [], a0, (a :: adj). repeat split; auto; congruence.
    + injection H as <-. exists [], a0, (a :: adj). repeat split; auto; congruence.
Qed.

Lemma parse_short_ok c tok rest opts rest' :
  parse_short_option c (tok :: rest) = Ok (opts, rest') ->
  (opts = [] /\ rest' = tok :: rest)
  \/ (rest' = rest /\ exists flags x adj,
        tok = c_dash :: flags ++ x :: adj /\ hd x flags <> c_dash
        /\ (flags <> [] -> has (cl_style c) allow_sticky = true)
        /\ Forall (flag_letter c) flags
        /\ opts = map (fun a => raw [c_dash; a] [] []) flags ++ [raw [c_dash; x] (opt_value adj) [tok]]).
Proof.
  unfold parse_short_option. cbn [at_index nth_error bind].
  destruct tok as [|c1 [|c2 adj]]; try (intros [= <- <-]; left; auto; fail).
  destruct (char_eqb_spec c1 c_dash) as [->|H1]; cbn [andb].
  2: { intros [= <- <-]; left; auto. }
  destruct (char_eqb_spec c2 c_dash) as [->|H2]; cbn [negb].
  { intros [= <- <-]; left; auto. }
  intros H. apply bind_Ok in H. destruct H as (r & Hr & H). cbn [erase_front bind] in H.
  injection H as <- <-. right. split; auto.
  destruct (short_loop_ok _ _ _ _ _ _ Hr c2 eq_refl) as (flags & x & a & E1 & E2 & E3 & E4).
  exists flags, x, a. rewrite E2, E1. repeat split; auto.
  destruct flags; simpl in *; congruence.
Qed.

Lemma parse_dos_ok c tok rest opts rest' :
  parse_dos_option c (tok :: rest) = Ok (opts, rest') ->
  (opts = [] /\ rest' = tok :: rest)
  \/ (rest' = rest /\ exists x adj,
        tok = c_slash :: x :: adj /\ opts = [raw [c_dash; x] (opt_value adj) [tok]]).
Proof.
  unfold parse_dos_option. cbn [at_index nth_error bind].
  destruct tok as [|c1 [|c2 adj]]; try (intros [= <- <-]; left; auto; fail).
  destruct (char_eqb_spec c1 c_slash) as [->|H1]; cbn [erase_front bind]; intros [= <- <-].
  - right. split; auto. exists c2, adj. auto.
  - left; auto.
Qed.

Lemma parse_disguised_ok c tok rest opts rest' :
  parse_disguised_long_option c (tok :: rest) = Ok (opts, rest') ->
  (opts = [] /\ rest' = tok :: rest)
  \/ (rest' = rest /\ exists b name d,
        (b = c_dash /\ hd c_eq name <> c_dash
         \/ b = c_slash /\ has (cl_style c) allow_slash_for_short = true)
        /\ lookup c name = Ok (Some d) /\ without c_eq name
        /\ (tok = b :: name /\ name <> [] /\ opts = [raw name [] [c_dash :: c_dash :: name]]
            \/ exists v, v <> [] /\ tok = b :: name ++ c_eq :: v
                 /\ opts = [raw name [v] [c_dash :: c_dash :: name ++ c_eq :: v]])).
Proof.
  unfold parse_disguised_long_option. cbn [at_index nth_error bind].
  destruct tok as [|c1 [|c2 s]]; try (intros [= <- <-]; left; auto; fail).
  destruct ((char_eqb c1 c_dash && negb (char_eqb c2 c_dash))
            || (has (cl_style c) allow_slash_for_short && char_eqb c1 c_slash)) eqn:Ec;
    [|intros [= <- <-]; left; auto].
  assert (Hb : c1 = c_dash /\ c2 <> c_dash
               \/ c1 = c_slash /\ has (cl_style c) allow_slash_for_short = true).
  { apply orb_true_iff in Ec. destruct Ec as [Ec|Ec]; apply andb_true_iff in Ec; destruct Ec as [E1 E2].
    - left. apply char_eqb_eq in E1. apply negb_true_iff, char_eqb_neq in E2. auto.
    - right. apply char_eqb_eq in E2. auto. }
  assert (Htok : c_dash :: (if char_eqb c1 c_slash then c_dash else c1) :: tl (c1 :: c2 :: s)
                 = c_dash :: c_dash :: c2 :: s).
  { destruct Hb as [[-> _]|[-> _]]; reflexivity. }
  intros H. apply bind_Ok in H. destruct H as (d & Hd & H). apply with_context_Ok in Hd.
  destruct d as [d|]; [|injection H as <- <-; left; auto].
  cbn [erase_front bind] in H. rewrite Htok in H. apply with_context_Ok in H.
  right.
  assert (Hname : forall name t, c2 :: s = name ++ t -> without c_eq name ->
            (t = [] \/ exists v, t = c_eq :: v) ->
            match find_char c_eq (c1 :: c2 :: s) with
            | Some p => substr_n (c1 :: c2 :: s) 1 (p - 1)
            | None => substr (c1 :: c2 :: s) 1
            end = name).
  { intros name t E Hn Ht. assert (Hc1 : c1 <> c_eq) by (destruct Hb as [[-> _]|[-> _]]; discriminate).
    rewrite E. destruct Ht as [->|[v ->]].
    - rewrite app_nil_r in *. cbn [find_char]. destruct (char_eqb_spec c1 c_eq); [congruence|].
      apply find_char_None in Hn. rewrite Hn. simpl. reflexivity.
    - cbn [find_char]. destruct (char_eqb_spec c1 c_eq); [congruence|].
      rewrite find_char_app by auto. cbn [option_map]. unfold substr_n. cbn [skipn].
      replace (S (List.length name) - 1) with (List.length name) by lia.
      apply firstn_app_exact. }
  destruct (parse_long_cases c (c_dash :: c_dash :: c2 :: s) rest)
    as [[_ Hx]|[(name & E & Hne & Hn & He)|[(name & v & E & Hn & Hv & He)|(name & E & Hn & He)]]].
  - exfalso. specialize (Hx _ eq_refl). discriminate.
  - rewrite He in H. injection H as <- <-. injection E as E. split; auto.
    exists c1, name, d. repeat split; auto.
    + destruct Hb as [[-> Hb]|Hb]; [left|right]; auto. split; auto. rewrite <- E. auto.
    + rewrite (Hname name []) in Hd; auto. now rewrite app_nil_r.
    + left. rewrite E. auto.
  - rewrite He in H. injection H as <- <-. injection E as E. split; auto.
    exists c1, name, d. repeat split; auto.
    + destruct Hb as [[-> Hb]|Hb]; [left|right]; auto. split; auto.
      destruct name as [|n0 name]; simpl in E |- *; [discriminate|]. injection E as <- _. auto.
    + rewrite (Hname name (c_eq :: v)) in Hd; eauto.
    + right. exists v. rewrite E. auto.
  - rewrite He in H. discriminate.
Qed.

Lemma parse_terminator_ok tok rest opts rest' :
  parse_terminator (tok :: rest) = Ok (opts, rest') ->
  (tok <> $"--" /\ opts = [] /\ rest' = tok :: rest)
  \/ (tok = $"--" /\ rest' = [] /\ opts = map term_opt rest).
Proof.
  unfold parse_terminator. cbn [at_index nth_error bind tl].
  destruct (str_eqb_spec tok $"--"); intros [= <- <-]; auto.
Qed.

Lemma handle_additional_ok f tok rest opts rest' :
  handle_additional_parser f (tok :: rest) = Ok (opts, rest') ->
  (opts = [] /\ rest' = tok :: rest)
  \/ (rest' = rest /\ exists name v, f tok = (name, v) /\ name <> [] /\ opts = [raw name (opt_value v) []]).
Proof.
  unfold handle_additional_parser. cbn [at_index nth_error bind].
  destruct (f tok) as [name v] eqn:E. destruct name as [|n0 name]; cbn [is_empty erase_front bind]; intros [= <- <-].
  - left; auto.
  - right. split; auto. exists (n0 :: name), v. repeat split; auto. discriminate.
Qed.

(** Every builtin parser reads the first token or leaves everything alone. *)
Lemma style_parser_ok c p tok rest opts rest' :
  no_custom c -> In p (style_parsers c) -> p (tok :: rest) = Ok (opts, rest') ->
  (opts = [] /\ rest' = tok :: rest)
  \/ (rest' = rest /\ reads c tok opts)
  \/ (tok = $"--" /\ rest' = [] /\ opts = map term_opt rest).
Proof.
  unfold no_custom, style_parsers. intros Hc Hin H. rewrite Hc in Hin. cbn [app] in Hin.
  rewrite !in_app_iff in Hin.
  destruct Hin as [Hin|[Hin|[Hin|[Hin|[Hin|[Hin|[]]]]]]].
  - destruct (cl_additional c) as [f|] eqn:Ea; [|destruct Hin]. destruct Hin as [<-|[]].
    apply handle_additional_ok in H. destruct H as [H|[-> (n & v & H1 & H2 & ->)]]; auto.
    right; left. split; auto. eapply reads_additional; eauto.
  - destruct (has (cl_style c) allow_long) eqn:Es; [|destruct Hin]. destruct Hin as [<-|[]].
    destruct (parse_long_cases c tok rest)
      as [[He _]|[(name & E & Hne & Hn & He)|[(name & v & E & Hn & Hv & He)|(name & E & Hn & He)]]];
      rewrite He in H; try discriminate; injection H as <- <-.
    + left; auto.
    + right; left. split; auto. eapply reads_long; eauto.
    + right; left. split; auto. eapply reads_long_eq; eauto.
  - destruct (has (cl_style c) allow_long_disguise) eqn:Es; [|destruct Hin]. destruct Hin as [<-|[]].
    apply parse_disguised_ok in H.
    destruct H as [H|[-> (b & name & d & Hb & Hl & Hn & [(-> & Hne & ->)|(v & Hv & -> & ->)])]]; auto.
    + right; left. split; auto. apply reads_disguised_name with b d; auto.
      destruct Hb as [[-> Hb]|Hb]; [left|right]; auto. split; auto.
      destruct name; simpl in *; congruence.
    + right; left. split; auto. apply reads_disguised_eq with b d; auto.
  - destruct (has (cl_style c) allow_short) eqn:Es; [|destruct Hin].
    destruct (has (cl_style c) allow_dash_for_short) eqn:Es2; [|destruct Hin].
    destruct Hin as [<-|[]]. apply parse_short_ok in H.
    destruct H as [H|[-> (fl & x & a & -> & H1 & H2 & H3 & ->)]]; auto.
    right; left. split; auto. apply reads_short; auto.
  - destruct (has (cl_style c) allow_short) eqn:Es; [|destruct Hin].
    destruct (has (cl_style c) allow_slash_for_short) eqn:Es2; [|destruct Hin].
    destruct Hin as [<-|[]]. apply parse_dos_ok in H.
    destruct H as [H|[-> (x & a & -> & ->)]]; auto.
    right; left. split; auto. apply reads_slash; auto.
  - subst p. apply parse_terminator_ok in H. destruct H as [(_ & H1 & H2)|H]; auto.
Qed.

Lemma reads_last c tok opts :
  reads c tok opts ->
  exists fl o, opts = map (fun a => raw [c_dash; a] [] []) fl ++ [o] /\ Forall (flag_letter c) fl
    /\ po_pos o = (-1)%Z /\ po_unreg o = false /\ po_ci o = false
    /\ (po_key o = [] -> exists v, po_value o = [v] /\ po_orig o = [tok] /\ v <> [] /\
                                   tok = c_dash :: c_dash :: c_eq :: v
                         \/ exists v d, po_value o = [v] /\ po_orig o = [c_dash :: c_dash :: c_eq :: v]
                                    /\ v <> [] /\ lookup c [] = Ok (Some d)).
Proof.
  intros H. destruct H.
  - exists [], (raw name [] [tok]). repeat split; auto. simpl. congruence.
  - exists [], (raw name [v] [tok]). repeat split; auto. simpl. intros ->. exists v. left. auto.
  - exists flags, (raw [c_dash; x] (opt_value adj) [tok]). repeat split; auto. simpl. discriminate.
  - exists [], (raw [c_dash; x] (opt_value adj) [tok]). repeat split; auto. simpl. discriminate.
  - exists [], (raw name [] [c_dash :: c_dash :: name]). repeat split; auto. simpl. congruence.
  - exists [], (raw name [v] [c_dash :: c_dash :: name ++ c_eq :: v]). repeat split; auto. simpl.
    intros ->. exists v. right. exists v, d. auto.
  - exists [], (raw name (opt_value v) []). repeat split; auto. simpl. congruence.
Qed.

(** ** What an option takes from the following tokens *)

Definition with_key (k : str) (o : popt) : popt :=
  mk_popt k (po_pos o) (po_value o) (po_orig o) (po_unreg o) (po_ci o).
Definition with_unreg (o : popt) : popt :=
  mk_popt (po_key o) (po_pos o) (po_value o) (po_orig o) true (po_ci o).
Definition take_tokens (ts : list str) (o : popt) : popt :=
  mk_popt (po_key o) (po_pos o) (po_value o ++ ts) (po_orig o ++ ts) (po_unreg o) (po_ci o).

Lemma take_tokens_nil o : take_tokens [] o = o.
Proof. unfold take_tokens. rewrite !app_nil_r. now destruct o. Qed.

Lemma take_tokens_app a b o : take_tokens b (take_tokens a o) = take_tokens (a ++ b) o.
Proof. unfold take_tokens. simpl. now rewrite <- !app_assoc. Qed.

Lemma grab_tokens_ok c ps key tok_exc n opt other opt' other' :
  grab_tokens c ps key tok_exc n opt other = Ok (opt', other') ->
  (0 <= n)%Z ->
  exists ts, other = ts ++ other' /\ opt' = take_tokens ts opt
    /\ (Z.of_nat (List.length ts) = n \/ other' = [] /\ (Z.of_nat (List.length ts) <= n)%Z).
Proof.
  revert tok_exc n opt; induction other as [|tok rest IH]; intros tok_exc n opt H Hn; cbn [grab_tokens] in H.
  - injection H as <- <-. exists []. repeat split; [now rewrite take_tokens_nil|].
    right. simpl. auto.
  - destruct (Z.eqb_spec n 0) as [->|Hne].
    + injection H as <- <-. exists []. repeat split; [now rewrite take_tokens_nil|]. left. reflexivity.
    + apply bind_Ok in H. destruct H as (f & Hf & H). apply bind_Ok in H. destruct H as (t & Ht & H).
      apply IH in H; [|lia]. destruct H as (ts & E1 & E2 & E3).
      exists (tok :: ts). repeat split.
      * simpl. now rewrite E1.
      * rewrite E2. change (tok :: ts) with ([tok] ++ ts). rewrite <- take_tokens_app. reflexivity.
      * simpl List.length. destruct E3 as [E3|[E3 E4]]; [left|right]; [lia|]. split; auto. lia.
Qed.

(** A sane value semantic: unsigned counts. *)
Definition sem_ok (s : value_semantic) : Prop := (0 <= vs_min s)%Z /\ (0 <= vs_max s <= UINT_MAX)%Z.
Definition desc_ok (ds : list option_description) : Prop := Forall (fun d => sem_ok (od_sem d)) ds.

Lemma lookup_In c name d : lookup c name = Ok (Some d) -> In d (cl_desc c).
Proof. unfold lookup. apply find_found_In. Qed.

Lemma lookup_sem_ok c name d :
  desc_ok (cl_desc c) -> lookup c name = Ok (Some d) -> sem_ok (od_sem d).
Proof.
  intros H Hl. apply lookup_In in Hl. unfold desc_ok in H. rewrite Forall_forall in H. auto.
Qed.

Lemma finish_option_ok c ps opt other opt' other' :
  finish_option c ps opt other = Ok (opt', other') ->
  (po_key opt = [] /\ opt' = opt /\ other' = other)
  \/ (po_key opt <> [] /\ lookup c (po_key opt) = Ok None /\ cl_allow_unregistered c = true
      /\ opt' = with_unreg opt /\ other' = other)
  \/ (po_key opt <> [] /\ exists d ts, lookup c (po_key opt) = Ok (Some d)
      /\ other = ts ++ other'
      /\ opt' = take_tokens ts (with_key (od_key d (po_key opt)) opt)
      /\ (vs_max (od_sem d) = 0%Z -> po_value opt = [])
      /\ Z.of_nat (List.length ts)
         = Z.max 0 (vs_min (od_sem d) - Z.of_nat (List.length (po_value opt)))).
Proof.
  unfold finish_option. destruct (is_empty (po_key opt)) eqn:Ek.
  { apply is_empty_true in Ek. intros [= <- <-]. left; auto. }
  apply is_empty_false in Ek. intros H. apply bind_Ok in H. destruct H as (xd & Hl & H).
  apply with_context_Ok in Hl. destruct xd as [d|].
  - right; right. split; auto. set (n := Z.of_nat (List.length (po_value opt))) in *.
    destruct (Z.leb_spec (vs_min (od_sem d)) (n + Z.of_nat (List.length other))) as [Hm|Hm]; [|discriminate].
    destruct (negb (is_empty (po_value opt)) && Z.eqb (vs_max (od_sem d)) 0) eqn:Ee; [discriminate|].
    set (need := if Z.leb n (vs_min (od_sem d)) then (vs_min (od_sem d) - n)%Z else 0%Z) in *.
    assert (Hneed : need = Z.max 0 (vs_min (od_sem d) - n)).
    { unfold need. destruct (Z.leb_spec n (vs_min (od_sem d))); lia. }
    apply grab_tokens_ok in H; [|lia]. destruct H as (ts & E1 & E2 & E3).
    exists d, ts. repeat split; auto.
    + intros Em. rewrite Em in Ee. simpl in Ee. rewrite andb_true_r in Ee.
      apply negb_false_iff, is_empty_true in Ee. auto.
    + rewrite <- Hneed. destruct E3 as [E3|[-> E3]]; auto.
      rewrite app_nil_r in E1. subst other. lia.
  - destruct (cl_allow_unregistered c) eqn:Eu; [|discriminate].
    injection H as <- <-. right; left. repeat split; auto.
Qed.

Lemma finish_option_length c ps opt other opt' other' :
  finish_option c ps opt other = Ok (opt', other') -> List.length other' <= List.length other.
Proof.
  intros H. apply finish_option_ok in H.
  destruct H as [(_ & _ & ->)|[(_ & _ & _ & _ & ->)|(_ & d & ts & _ & -> & _)]]; auto.
  rewrite app_length. lia.
Qed.

Lemma finish_all_term c ps ts args :
  finish_all c ps (map term_opt ts) args = Ok (map term_opt ts, args).
Proof.
  induction ts as [|t ts IH]; auto. destruct ts as [|t2 ts]; auto.
  change (map term_opt (t :: t2 :: ts)) with (term_opt t :: map term_opt (t2 :: ts)).
  cbn [finish_all]. destruct (map term_opt (t2 :: ts)) eqn:E; [discriminate|]. rewrite IH.
  reflexivity.
Qed.

Lemma finish_all_cons c ps o o2 os args :
  finish_all c ps (o :: o2 :: os) args =
  let* r := finish_option c ps o [] in
  let* rs := finish_all c ps (o2 :: os) args in
  Ok (fst r :: fst rs, snd rs).
Proof. reflexivity. Qed.

Lemma finish_all_snoc_ok c ps os o args opts args' :
  finish_all c ps (os ++ [o]) args = Ok (opts, args') ->
  exists fs f, opts = fs ++ [f]
    /\ Forall2 (fun x y => finish_option c ps x [] = Ok (y, [])) os fs
    /\ finish_option c ps o args = Ok (f, args').
Proof.
  revert opts; induction os as [|x os IH]; intros opts H.
  - cbn [app finish_all] in H. apply bind_Ok in H. destruct H as ((f & a) & H1 & [= <- <-]).
    exists [], f. repeat split; auto.
  - assert (E : finish_all c ps ((x :: os) ++ [o]) args =
       let* r := finish_option c ps x [] in
       let* rs := finish_all c ps (os ++ [o]) args in Ok (fst r :: fst rs, snd rs)).
    { destruct os; reflexivity. }
    rewrite E in H. apply bind_Ok in H. destruct H as ((y & r) & H1 & H).
    apply bind_Ok in H. destruct H as ((ys & a) & H2 & [= <- <-]).
    destruct (IH ys H2) as (fs & f & -> & Hf & Hl).
    exists (y :: fs), f. repeat split; auto. constructor; auto.
    pose proof (finish_option_length _ _ _ _ _ _ H1) as Hlen. destruct r; [auto|simpl in Hlen; lia].
Qed.

(** ** One iteration of the main loop *)

Definition step_result (c : cmdline) (tok : str) (rest : list str) (opts : list popt)
    (args' : list str) : Prop :=
  (exists os, reads c tok os /\ finish_all c (style_parsers c) os rest = Ok (opts, args'))
  \/ (tok = $"--" /\ args' = [] /\ opts = map term_opt rest)
  \/ (opts = [pos_opt tok] /\ args' = rest).

Lemma reads_finish_length c tok os ps rest opts args' :
  reads c tok os -> finish_all c ps os rest = Ok (opts, args') -> List.length args' <= List.length rest.
Proof.
  intros Hr H. destruct (reads_last _ _ _ Hr) as (fl & o & -> & _).
  apply finish_all_snoc_ok in H. destruct H as (fs & f & _ & _ & Hf).
  eapply finish_option_length; eauto.
Qed.

Lemma try_parsers_ok c todo tok rest opts args' ok :
  no_custom c -> (forall p, In p todo -> In p (style_parsers c)) ->
  try_parsers c (style_parsers c) todo (tok :: rest) = Ok (opts, args', ok) ->
  (ok = false /\ opts = [] /\ args' = tok :: rest)
  \/ (ok = true /\ ((exists os, reads c tok os /\ finish_all c (style_parsers c) os rest = Ok (opts, args'))
                    \/ (tok = $"--" /\ args' = [] /\ opts = map term_opt rest))).
Proof.
  intros Hc. revert opts args' ok; induction todo as [|p todo IH]; intros opts args' ok Hin H; cbn [try_parsers] in H.
  - injection H as <- <- <-. auto.
  - apply bind_Ok in H. destruct H as ((next & args1) & Hp & H).
    apply bind_Ok in H. destruct H as ((fin & args2) & Hf & H).
    destruct (style_parser_ok c p tok rest next args1 Hc) as [[-> ->]|[[-> Hr]|(-> & -> & ->)]];
      auto; try (apply Hin; now left).
    + cbn [finish_all] in Hf. injection Hf as <- <-. rewrite Nat.eqb_refl in H.
      apply bind_Ok in H. destruct H as (((f2 & a3) & o) & H1 & [= <- <- <-]).
      simpl. apply IH; auto. intros q Hq. apply Hin. now right.
    + pose proof (reads_finish_length _ _ _ _ _ _ _ Hr Hf) as Hlen.
      destruct (Nat.eqb_spec (List.length args2) (List.length (tok :: rest))) as [E|E].
      { simpl in E. lia. }
      injection H as <- <- <-. right. split; auto. left. eauto.
    + rewrite finish_all_term in Hf. injection Hf as <- <-. simpl in H.
      injection H as <- <- <-. right. auto.
Qed.

Lemma main_step_ok c tok rest opts args' :
  no_custom c -> main_step c (tok :: rest) = Ok (opts, args') -> step_result c tok rest opts args'.
Proof.
  intros Hc H. unfold main_step in H. apply bind_Ok in H. destruct H as (((o & a) & ok) & Ht & H).
  apply try_parsers_ok in Ht; auto. destruct Ht as [(-> & -> & ->)|(-> & Ht)].
  - cbn [at_index nth_error bind erase_front app] in H. injection H as <- <-.
    right; right. auto.
  - injection H as <- <-. destruct Ht as [Ht|Ht]; [left|right; left]; auto.
Qed.

Lemma step_length c tok rest opts args' :
  step_result c tok rest opts args' -> List.length args' <= List.length rest.
Proof.
  intros [(os & Hr & Hf)|[(_ & -> & _)|(_ & ->)]]; simpl; try lia.
  eapply reads_finish_length; eauto.
Qed.

(** Induction principle for successful runs of the main loop. *)
Inductive steps (c : cmdline) : list str -> list popt -> Prop :=
| steps_nil : steps c [] []
| steps_cons tok rest opts args' more :
    step_result c tok rest opts args' -> steps c args' more -> steps c (tok :: rest) (opts ++ more).

Lemma main_loop_steps c fuel args opts :
  no_custom c -> main_loop fuel c args = Ok opts -> steps c args opts.
Proof.
  intros Hc. revert args opts; induction fuel as [|fuel IH]; intros args opts H.
  - destruct args; cbn [main_loop] in H; [injection H as <-; constructor|discriminate].
  - destruct args as [|tok rest]; cbn [main_loop] in H; [injection H as <-; constructor|].
    apply bind_Ok in H. destruct H as ((o & a) & H1 & H). cbn [fst snd] in H.
    apply bind_Ok in H. destruct H as (more & H2 & [= <-]).
    econstructor; [apply main_step_ok; eauto|]. auto.
Qed.
