(** Proofs for C113. *)

From Coq Require Import List Ascii String NArith ZArith Bool Arith Lia.
From Verif Require Import Base BaseFacts Errors Spec Values OptDesc SpecLookup LookupFacts Positional Cmdline SpecCmdline
  CmdlineFacts RunFacts ThrowFacts SpecErrors SpecReject RejectFacts Parsers Build Rerun SpecRerun.
Import ListNotations.

(** ** What each function leaves when it throws, apart from its outcome *)

Fixpoint grab_left (c : cmdline) (ps : list style_parser) (min_tokens : Z) (other_tokens : list str) : list str :=
  match other_tokens with
  | [] => []
  | tok :: rest =>
      if Z.eqb min_tokens 0 then other_tokens
      else
        match looks_like_option ps [tok] with
        | Ok true => match lookup c tok with
                     | Ok None => grab_left c ps (min_tokens - 1) rest
                     | _ => other_tokens
                     end
        | Ok false => grab_left c ps (min_tokens - 1) rest
        | _ => other_tokens
        end
  end.

Definition finish_left (c : cmdline) (ps : list style_parser) (opt : popt) (other_tokens : list str) : list str :=
  match lookup c (po_key opt) with
  | Ok (Some d) =>
      let nvalues := Z.of_nat (List.length (po_value opt)) in
      let min_tokens := vs_min (od_sem d) in
      if Z.leb min_tokens (nvalues + Z.of_nat (List.length other_tokens)) then
        if negb (is_empty (po_value opt)) && Z.eqb (vs_max (od_sem d)) 0 then other_tokens
        else grab_left c ps (if Z.leb nvalues min_tokens then (min_tokens - nvalues)%Z else 0%Z) other_tokens
      else other_tokens
  | _ => other_tokens
  end.

Fixpoint finish_all_left (c : cmdline) (ps : list style_parser) (next : list popt) (args : list str) : list str :=
  match next with
  | [] => args
  | [o] => finish_left c ps o args
  | o :: next' => match finish_option c ps o [] with Ok _ => finish_all_left c ps next' args | _ => args end
  end.

Definition disguised_left (c : cmdline) (args : list str) : list str :=
  match args with
  | tok :: rest =>
      match lookup c (match find_char c_eq tok with Some p => substr_n tok 1 (p - 1) | None => substr tok 1 end) with
      | Ok (Some _) => (c_dash :: match tok with
                                  | c1 :: tok' => (if char_eqb c1 c_slash then c_dash else c1) :: tok'
                                  | [] => []
                                  end) :: rest
      | _ => args
      end
  | [] => []
  end.

Definition leaving_parsers (c : cmdline) : list (style_parser * (list str -> list str)) :=
  let s := cl_style c in
  let same := fun args : list str => args in
  match cl_additional c with Some p => [(handle_additional_parser p, same)] | None => [] end
  ++ (if has s allow_long then [(parse_long_option c, same)] else [])
  ++ (if has s allow_long_disguise then [(parse_disguised_long_option c, disguised_left c)] else [])
  ++ (if has s allow_short && has s allow_dash_for_short then [(parse_short_option c, same)] else [])
  ++ (if has s allow_short && has s allow_slash_for_short then [(parse_dos_option c, same)] else [])
  ++ [(parse_terminator, same)].

Fixpoint try_left (c : cmdline) (ps : list style_parser) (todo : list (style_parser * (list str -> list str))) (args : list str) : list str :=
  match todo with
  | [] => args
  | (p, kept) :: todo' =>
      match p args with
      | Ok (next, args1) =>
          match finish_all c ps next args1 with
          | Ok (_, args2) =>
              if Nat.eqb (List.length args2) (List.length args) then try_left c ps todo' args2 else args2
          | _ => finish_all_left c ps next args1
          end
      | _ => kept args
      end
  end.

Fixpoint main_left (fuel : nat) (c : cmdline) (args : list str) : list str :=
  match args, fuel with
  | [], _ => []
  | _, O => args
  | _, S fuel' =>
      match main_step c args with
      | Ok r => main_left fuel' c (snd r)
      | _ => try_left c (style_parsers c) (leaving_parsers c) args
      end
  end.

Lemma find_about ds n b1 b2 b3 e : find_nothrow ds n b1 b2 b3 = Throw e -> about_token e.
Proof. intros H. apply find_throw_ambiguous in H. destruct H as (alts & ->). right. now exists alts. Qed.

Lemma context_about_token n t z e : about_token e -> about_token (add_context n t z e).
Proof. unfold about_token. now rewrite context_class. Qed.

Lemma map_leaving c : no_custom c -> map fst (leaving_parsers c) = style_parsers c.
Proof.
  intros Hc. unfold leaving_parsers, style_parsers. rewrite Hc. cbn [app]. rewrite !map_app. cbn [map].
  destruct (cl_additional c); destruct (has (cl_style c) allow_long); destruct (has (cl_style c) allow_long_disguise);
    destruct (_ && _); destruct (_ && _); reflexivity.
Qed.

(** The functions on vectors have the outcomes of those of [Cmdline], and leave this vector when they throw. *)
Definition agree {A} (h : on_args A) (x : outcome (A * list str)) (kept : list str) : Prop :=
  match x with
  | Ok (a, args) => h = (args, Ok a)
  | Throw e => h = (kept, Throw e)
  | Undef u => snd h = Undef u
  | NoFuel => snd h = NoFuel
  end.

Ltac use H := first [rewrite H|match type of H with snd ?h = _ => destruct h as [? ?]; cbn [snd] in H; rewrite H end].

Lemma grab_agree c ps : forall other key te n o,
  agree (grab_here c ps key te n o other) (grab_tokens c ps key te n o other) (grab_left c ps n other).
Proof.
  induction other as [|t other IH]; intros key te n o; cbn [grab_here grab_tokens grab_left]; [reflexivity|].
  destruct (Z.eqb n 0); [reflexivity|].
  destruct (looks_like_option ps [t]) as [fl|e|u|]; cbn [with_context keep bind].
  - destruct fl.
    + destruct (lookup c t) as [[d|]|e|u|]; cbn [with_context keep bind]; try reflexivity; try apply IH.
      all: reflexivity.
    + cbn [keep bind]. apply IH.
  - reflexivity.
  - reflexivity.
  - reflexivity.
Qed.

Lemma finish_agree c ps o other :
  agree (finish_here c ps o other) (finish_option c ps o other) (finish_left c ps o other).
Proof.
  unfold finish_here, finish_option, finish_left. destruct (is_empty (po_key o)); [reflexivity|]. cbv zeta.
  destruct (lookup c (po_key o)) as [[d|]|e|u|]; cbn [with_context keep bind].
  - destruct (Z.leb _ _); [destruct (_ && _); [|apply grab_agree]|]; cbn [has_option_name ex_class mk_cmdline_syntax make_exn]; reflexivity.
  - destruct (cl_allow_unregistered c); reflexivity.
  - reflexivity.
  - reflexivity.
  - reflexivity.
Qed.

Lemma finish_all_agree c ps : forall next args,
  agree (finish_all_here c ps next args) (finish_all c ps next args) (finish_all_left c ps next args).
Proof.
  induction next as [|o next IH]; intros args; [reflexivity|]. destruct next as [|o2 next].
  - cbn [finish_all_here finish_all finish_all_left]. pose proof (finish_agree c ps o args) as H. unfold agree, and_then in *.
    destruct (finish_option c ps o args) as [(o' & args')|e|u|]; cbn [bind fst snd]; use H; reflexivity.
  - rewrite finish_all_cons.
    change (finish_all_here c ps (o :: o2 :: next) args) with
      (keep args (snd (finish_here c ps o [])) (fun o' =>
       and_then (finish_all_here c ps (o2 :: next) args) (fun os args' => (args', Ok (o' :: os))))).
    change (finish_all_left c ps (o :: o2 :: next) args)
      with (match finish_option c ps o [] with Ok _ => finish_all_left c ps (o2 :: next) args | _ => args end).
    pose proof (finish_agree c ps o []) as H. specialize (IH args). unfold agree, and_then in *.
    destruct (finish_option c ps o []) as [(o' & args')|e|u|]; cbn [bind]; use H; cbn [keep snd fst]; try reflexivity.
    destruct (finish_all c ps (o2 :: next) args) as [(os & args2)|e|u|]; cbn [bind fst snd]; use IH; reflexivity.
Qed.

Lemma unchanged_agree p args : agree (unchanged p args) (p args) args.
Proof. unfold agree, unchanged. destruct (p args) as [(os & a)|e|u|]; reflexivity. Qed.

Lemma disguised_agree c args : agree (disguised_here c args) (parse_disguised_long_option c args) (disguised_left c args).
Proof.
  destruct args as [|tok rest]; [reflexivity|]. unfold disguised_here, parse_disguised_long_option, disguised_left.
  cbn [at_index nth_error bind]. destruct tok as [|c1 [|c2 s]]; try reflexivity.
  destruct (_ || _); [|reflexivity]. cbv zeta.
  set (name := match find_char c_eq (c1 :: c2 :: s) with Some p => substr_n (c1 :: c2 :: s) 1 (p - 1) | None => substr (c1 :: c2 :: s) 1 end).
  destruct (lookup c name) as [[d|]|e|u|]; cbn [with_context keep bind]; try reflexivity.
  - cbn [erase_front bind tl]. unfold unchanged.
    set (tok' := c_dash :: (if char_eqb c1 c_slash then c_dash else c1) :: c2 :: s).
    destruct (parse_long_option c (tok' :: rest)) as [(os & a)|e|u|]; cbn [fst snd with_context]; reflexivity.
Qed.

Lemma parsers_agree c :
  Forall2 (fun h x => forall args, agree (h args) (fst x args) (snd x args)) (parsers_here c) (leaving_parsers c).
Proof.
  unfold parsers_here, leaving_parsers. cbv zeta.
  assert (H : forall p, Forall2 (fun h x => forall args, agree (h args) (fst x args) (snd x args))
                          [unchanged p] [(p, fun args : list str => args)]).
  { intros p. constructor; [|constructor]. intros args. apply unchanged_agree. }
  repeat apply Forall2_app.
  - destruct (cl_additional c); [apply H|constructor].
  - destruct (has _ allow_long); [apply H|constructor].
  - destruct (has _ allow_long_disguise); [|constructor]. constructor; [|constructor]. intros args. apply disguised_agree.
  - destruct (_ && _); [apply H|constructor].
  - destruct (_ && _); [apply H|constructor].
  - apply H.
Qed.

Lemma try_agree c ps : forall (hs : list parser_here) (todo : list (style_parser * (list str -> list str))) args,
  Forall2 (fun h x => forall args, agree (h args) (fst x args) (snd x args)) hs todo ->
  agree (try_here c ps hs args)
    (let* r := try_parsers c ps (map fst todo) args in let '(os, args', ok) := (r : list popt * list str * bool) in Ok ((os, ok), args'))
    (try_left c ps todo args).
Proof.
  intros hs todo args H. revert args. induction H as [|h (p & k) hs todo Hh _ IH]; intros args; [reflexivity|].
  cbn [try_here map fst try_parsers try_left]. specialize (Hh args). cbn [fst snd] in Hh. unfold agree, and_then in Hh |- *.
  destruct (p args) as [(next & args1)|e|u|]; cbn [bind]; use Hh; cbn [fst snd keep]; try reflexivity.
  pose proof (finish_all_agree c ps next args1) as Hf. unfold agree in Hf.
  destruct (finish_all c ps next args1) as [(fin & args2)|e|u|]; cbn [bind]; use Hf; cbn [fst snd keep]; try reflexivity.
  destruct (Nat.eqb _ _); [|reflexivity]. specialize (IH args2). unfold agree in IH. cbn [fst snd].
  change (list str -> outcome (list popt * list str)) with style_parser in *.
  set (z := try_parsers c ps (map fst todo) args2) in *. clearbody z.
  destruct z as [((os & a3) & ok)|e|u|]; cbn [bind] in IH |- *;
    use IH; cbn [fst snd keep]; reflexivity.
Qed.

Lemma main_agree c : no_custom c -> forall fuel args,
  agree (main_here fuel c args) (let* r := main_loop fuel c args in Ok (r, [])) (main_left fuel c args).
Proof.
  intros Hc. induction fuel as [|fuel IH]; intros args; destruct args as [|tok rest]; try reflexivity.
  cbn [main_here main_loop main_left]. pose proof (try_agree c (style_parsers c) _ _ (tok :: rest) (parsers_agree c)) as H.
  rewrite (map_leaving c Hc) in H. unfold main_step. cbv zeta. unfold agree, and_then in H |- *.
  destruct (try_parsers c (style_parsers c) (style_parsers c) (tok :: rest)) as [((os & a) & ok)|e|u|]; cbn [bind] in H |- *;
    use H; cbn [fst snd keep]; try reflexivity.
  assert (Hrec : forall os2 a2,
    match (let* r := (let* rest0 := main_loop fuel c a2 in Ok (os2 ++ rest0)) in Ok (r, [])) with
    | Ok (x, args) => (let (args, r) := main_here fuel c a2 in keep args r (fun more => (args, Ok (os2 ++ more)))) = (args, Ok x)
    | Throw e => (let (args, r) := main_here fuel c a2 in keep args r (fun more => (args, Ok (os2 ++ more)))) = (main_left fuel c a2, Throw e)
    | Undef u => snd ((let (args, r) := main_here fuel c a2 in keep args r (fun more => (args, Ok (os2 ++ more))))) = Undef u
    | NoFuel => snd ((let (args, r) := main_here fuel c a2 in keep args r (fun more => (args, Ok (os2 ++ more))))) = NoFuel
    end).
  { intros os2 a2. specialize (IH a2). unfold agree in IH. destruct (main_loop fuel c a2) as [r|e|u|]; cbn [bind] in IH |- *;
      use IH; cbn [fst snd keep]; reflexivity. }
  destruct ok; cbn [fst snd keep bind]; [apply Hrec|].
  destruct a as [|t a]; cbn [at_index nth_error erase_front bind fst snd keep]; [reflexivity|apply Hrec].
Qed.

(** ** The style parsers *)

Lemma long_about c args e : parse_long_option c args = Throw e -> about_token e.
Proof.
  destruct args as [|tok rest]; [discriminate|]. intros H.
  destruct (parse_long_cases c tok rest) as [[E _]|[(n & _ & _ & _ & E)|[(n & v & _ & _ & _ & E)|(n & _ & _ & E)]]];
    rewrite E in H; try discriminate. injection H as <-. now left.
Qed.

Lemma short_loop_about c tok : forall adjacent name acc e, short_loop c tok name adjacent acc = Throw e -> about_token e.
Proof.
  induction adjacent as [|a adj IH]; intros name acc e H; cbn [short_loop] in H; apply bind_Throw in H;
    destruct H as [H|(d & _ & H)].
  1,3: apply with_context_Throw in H; destruct H as (e0 & H & ->); apply context_about_token; eapply find_about; eauto.
  - destruct d; discriminate.
  - destruct d as [d|]; [|discriminate]. cbv zeta in H.
    destruct (has (cl_style c) allow_sticky && _); [|discriminate]. eauto.
Qed.

(** Every parser of the library complains about the token and leaves it where it is, or has put "--" in front. *)
Lemma leaving_throw c p kept tok rest e :
  In (p, kept) (leaving_parsers c) -> p (tok :: rest) = Throw e ->
  about_token e
  /\ (kept (tok :: rest) = tok :: rest
      \/ has (cl_style c) allow_long_disguise = true
         /\ exists b n, tok = b :: n /\ kept (tok :: rest) = (dashdash ++ n) :: rest).
Proof.
  unfold leaving_parsers. rewrite !in_app_iff. intros [Hin|[Hin|[Hin|[Hin|[Hin|Hin]]]]] H.
  - destruct (cl_additional c) as [f|]; [|destruct Hin]. destruct Hin as [[= <- <-]|[]].
    unfold handle_additional_parser in H. cbn [at_index nth_error bind] in H.
    destruct (f tok) as [a b]. destruct (is_empty a); discriminate.
  - destruct (has (cl_style c) allow_long); [|destruct Hin]. destruct Hin as [[= <- <-]|[]].
    split; [now apply long_about in H|now left].
  - destruct (has (cl_style c) allow_long_disguise); [|destruct Hin]. destruct Hin as [[= <- <-]|[]].
    unfold parse_disguised_long_option in H. cbn [at_index nth_error bind] in H.
    destruct tok as [|c1 [|c2 s]]; try discriminate.
    destruct ((char_eqb c1 c_dash && negb (char_eqb c2 c_dash))
              || (has (cl_style c) allow_slash_for_short && char_eqb c1 c_slash)) eqn:Ec; [|discriminate].
    assert (Hb : c1 = c_dash \/ c1 = c_slash).
    { apply orb_true_iff in Ec. destruct Ec as [Ec|Ec]; apply andb_true_iff in Ec; destruct Ec as [E1 E2];
        [left; now apply char_eqb_eq|right; now apply char_eqb_eq]. }
    cbv zeta in H. unfold disguised_left.
    apply bind_Throw in H. destruct H as [H|(d & Hd & H)].
    + apply with_context_Throw in H. destruct H as (e0 & H & ->). rewrite H.
      split; [|now left]. apply context_about_token. eapply find_about, H.
    + apply with_context_Ok in Hd. rewrite Hd. destruct d as [d|]; [|discriminate]. cbn [erase_front bind] in H.
      apply with_context_Throw in H. destruct H as (e0 & H & ->). apply long_about in H.
      split; [now apply context_about_token|]. right. split; [reflexivity|]. exists c1, (c2 :: s).
      split; [reflexivity|]. destruct Hb as [->| ->]; reflexivity.
  - destruct (_ && _); [|destruct Hin]. destruct Hin as [[= <- <-]|[]]. split; [|now left].
    unfold parse_short_option in H. cbn [at_index nth_error bind] in H.
    destruct tok as [|c1 [|c2 adj]]; try discriminate. destruct (_ && _); [|discriminate].
    apply bind_Throw in H. destruct H as [H|(r & _ & H)]; [|discriminate]. now apply short_loop_about in H.
  - destruct (_ && _); [|destruct Hin]. destruct Hin as [[= <- <-]|[]].
    unfold parse_dos_option in H. cbn [at_index nth_error bind] in H.
    destruct tok as [|c1 [|c2 s]]; try discriminate. destruct (char_eqb _ _); discriminate.
  - destruct Hin as [[= <- <-]|[]]. unfold parse_terminator in H. cbn [at_index nth_error bind] in H.
    destruct (str_eqb _ _); discriminate.
Qed.

Lemma style_about c p tok rest e : no_custom c -> In p (style_parsers c) -> p (tok :: rest) = Throw e -> about_token e.
Proof.
  intros Hc Hin H. rewrite <- (map_leaving c Hc) in Hin. apply in_map_iff in Hin. destruct Hin as ((q & k) & <- & Hin).
  now apply (leaving_throw c q k) in H.
Qed.

Lemma style_nil c q e : no_custom c -> In q (style_parsers c) -> q [] <> Throw e.
Proof.
  intros Hc Hq. unfold style_parsers in Hq. rewrite Hc in Hq. cbn [app] in Hq.
  rewrite !in_app_iff in Hq. destruct Hq as [Hq|[Hq|[Hq|[Hq|[Hq|Hq]]]]].
  - destruct (cl_additional c); [|destruct Hq]. now destruct Hq as [<-|[]].
  - destruct (has _ allow_long); [|destruct Hq]. now destruct Hq as [<-|[]].
  - destruct (has _ allow_long_disguise); [|destruct Hq]. now destruct Hq as [<-|[]].
  - destruct (_ && _); [|destruct Hq]. now destruct Hq as [<-|[]].
  - destruct (_ && _); [|destruct Hq]. now destruct Hq as [<-|[]].
  - now destruct Hq as [<-|[]].
Qed.

Lemma looks_about c ps args e : no_custom c -> (forall p, In p ps -> In p (style_parsers c)) ->
  looks_like_option ps args = Throw e -> about_token e.
Proof.
  intros Hc. revert args. induction ps as [|p ps IH]; intros args Hin H; cbn [looks_like_option] in H; [discriminate|].
  apply bind_Throw in H. destruct H as [H|((f & t) & _ & H)].
  - destruct args as [|tok rest]; [|eapply style_about; eauto; apply Hin; now left].
    exfalso. revert H. apply (style_nil c); auto. apply Hin. now left.
  - destruct (is_empty f); [|discriminate]. eapply IH; [|exact H]. intros q Hq. apply Hin. now right.
Qed.

(** ** Finishing an option *)

Lemma grab_left_suffix c ps : forall other n, exists ts, other = ts ++ grab_left c ps n other.
Proof.
  induction other as [|t other IH]; intros n; cbn [grab_left]; [now exists []|].
  assert (Hstop : exists ts, t :: other = ts ++ t :: other) by now exists [].
  assert (Hgo : exists ts, t :: other = ts ++ grab_left c ps (n - 1) other).
  { destruct (IH (n - 1)%Z) as (ts & E). exists (t :: ts). cbn. now f_equal. }
  destruct (Z.eqb n 0); auto.
  destruct (looks_like_option ps [t]) as [[]| | |]; auto. destruct (lookup c t) as [[]| | |]; auto.
Qed.

Lemma finish_left_suffix c ps o other : exists ts, other = ts ++ finish_left c ps o other.
Proof.
  assert (Hstop : exists ts, other = ts ++ other) by now exists [].
  unfold finish_left. destruct (lookup c (po_key o)) as [[d|]| | |]; auto.
  destruct (Z.leb _ _); auto. destruct (_ && _); auto. apply grab_left_suffix.
Qed.

Lemma finish_all_left_suffix c ps : forall next args, exists ts, args = ts ++ finish_all_left c ps next args.
Proof.
  assert (Hstop : forall args : list str, exists ts, args = ts ++ args) by (intros args; now exists []).
  induction next as [|o next IH]; intros args; [apply Hstop|]. destruct next as [|o2 next].
  - apply finish_left_suffix.
  - cbn [finish_all_left]. destruct (finish_option c ps o []); auto. apply (IH args).
Qed.

(** Tokens that an option takes are no reason to complain about an unknown option. *)
Lemma grab_known c : no_custom c -> forall other key te n o e,
  grab_tokens c (style_parsers c) key te n o other = Throw e ->
  about_token e \/ ex_class e = invalid_command_line_syntax missing_parameter.
Proof.
  intros Hc. induction other as [|t other IH]; intros key te n o e H; cbn [grab_tokens] in H; [discriminate|].
  destruct (Z.eqb n 0); [discriminate|]. apply bind_Throw in H. destruct H as [H|(fl & _ & H)].
  - apply with_context_Throw in H. destruct H as (e0 & H & ->). left. apply context_about_token.
    eapply looks_about; eauto.
  - apply bind_Throw in H. destruct H as [H|(te' & _ & H)]; [|eauto].
    destruct fl; [|discriminate]. apply bind_Throw in H. destruct H as [H|([d|] & _ & H)]; [| |discriminate].
    + apply with_context_Throw in H. destruct H as (e0 & H & ->). left. apply context_about_token.
      eapply find_about, H.
    + apply with_context_Throw in H. destruct H as (e0 & H & ->). injection H as <-. right. now rewrite context_class.
Qed.

Lemma finish_unknown c o other e : no_custom c -> finish_option c (style_parsers c) o other = Throw e ->
  ex_class e = unknown_option ->
  lookup c (po_key o) = Ok None /\ po_key o <> [] /\ finish_left c (style_parsers c) o other = other.
Proof.
  intros Hc H He. unfold finish_option in H. destruct (is_empty (po_key o)) eqn:Ek; [discriminate|].
  assert (Hk : po_key o <> []) by (intros E; rewrite E in Ek; discriminate).
  assert (Hab : ~ about_token e) by (intros [E|(alts & E)]; rewrite E in He; discriminate).
  cbv zeta in H. apply bind_Throw in H. destruct H as [H|(xd & Hxd & H)].
  - apply with_context_Throw in H. destruct H as (e0 & H & ->). contradict Hab. apply context_about_token.
    eapply find_about, H.
  - apply with_context_Ok in Hxd. unfold finish_left. rewrite Hxd. destruct xd as [d|]; [|auto]. exfalso.
    destruct (Z.leb _ _); [destruct (_ && _)|].
    + apply with_context_Throw in H. destruct H as (e0 & H & ->). injection H as <-. rewrite context_class in He. discriminate.
    + apply grab_known in H; auto. destruct H as [H|H]; [auto|]. rewrite H in He. discriminate.
    + apply with_context_Throw in H. destruct H as (e0 & H & ->). injection H as <-. rewrite context_class in He. discriminate.
Qed.

Lemma finish_all_unknown c : no_custom c -> forall os rest e,
  finish_all c (style_parsers c) os rest = Throw e -> ex_class e = unknown_option ->
  (exists o, In o os /\ lookup c (po_key o) = Ok None /\ po_key o <> [])
  /\ finish_all_left c (style_parsers c) os rest = rest.
Proof.
  intros Hc. induction os as [|o os IH]; intros rest e H He; [discriminate|]. destruct os as [|o2 os].
  - cbn [finish_all] in H. apply bind_Throw in H. destruct H as [H|(r & _ & H)]; [|discriminate].
    destruct (finish_unknown c o rest e Hc H He) as (Hl & Hk & E). split; [|exact E]. exists o. cbn. auto.
  - rewrite finish_all_cons in H. apply bind_Throw in H. destruct H as [H|(r & E & H)].
    + destruct (finish_unknown c o [] e Hc H He) as (Hl & Hk & _). split; [exists o; cbn; auto|].
      cbn [finish_all_left]. now rewrite H.
    + apply bind_Throw in H. destruct H as [H|(rs & _ & H)]; [|discriminate].
      destruct (IH rest e H He) as ((x & Hx & Hl) & E2). split; [exists x; split; [now right|exact Hl]|].
      change (finish_all_left c (style_parsers c) (o :: o2 :: os) rest)
        with (match finish_option c (style_parsers c) o [] with Ok _ => finish_all_left c (style_parsers c) (o2 :: os) rest | _ => rest end).
      now rewrite E.
Qed.

(** ** One step *)

(** What a step that throws leaves of the token and what follows it: *)
Inductive step_leaves (c : cmdline) (tok : str) (rest : list str) (e : exn) (kept : list str) : Prop :=
(* the token is still there; *)
| sl_there : about_token e -> kept = tok :: rest -> step_leaves c tok rest e kept
(* it has been written as a long option; *)
| sl_written b n :
    about_token e -> has (cl_style c) allow_long_disguise = true -> tok = b :: n -> kept = (dashdash ++ n) :: rest ->
    step_leaves c tok rest e kept
(* or it is gone. *)
| sl_gone ts :
    rest = ts ++ kept ->
    (ex_class e = unknown_option -> ts = [] /\ exists typed, names c tok typed /\ lookup c typed = Ok None) ->
    step_leaves c tok rest e kept.

Lemma try_leaves c tok rest e : no_custom c -> forall todo,
  (forall x, In x todo -> In x (leaving_parsers c)) ->
  try_parsers c (style_parsers c) (map fst todo) (tok :: rest) = Throw e ->
  step_leaves c tok rest e (try_left c (style_parsers c) todo (tok :: rest)).
Proof.
  intros Hc. induction todo as [|(p & k) todo IH]; intros Hin H; cbn [map fst try_parsers] in H; [discriminate|].
  assert (Hp : In p (style_parsers c)).
  { rewrite <- (map_leaving c Hc). apply in_map_iff. exists (p, k). split; [reflexivity|]. apply Hin. now left. }
  cbn [try_left]. apply bind_Throw in H. destruct H as [H|((next & args1) & E & H)].
  - rewrite H. destruct (leaving_throw c p k tok rest e (Hin _ (or_introl eq_refl)) H) as (Ha & [E|(Hd & b & n & Et & E)]).
    + now apply sl_there.
    + now apply (sl_written c tok rest e _ b n).
  - rewrite E. destruct (style_parser_ok c p tok rest next args1 Hc Hp E) as [[-> ->]|[[-> Hr]|(-> & -> & ->)]].
    + cbn [finish_all bind] in H |- *. rewrite Nat.eqb_refl in H |- *. apply bind_Throw in H.
      destruct H as [H|(((f & a) & ok) & _ & H)]; [|discriminate]. apply IH; auto. intros q Hq. apply Hin. now right.
    + apply bind_Throw in H. destruct H as [H|((fin & args2) & Hf & H)].
      * rewrite H. destruct (finish_all_left_suffix c (style_parsers c) next rest) as (ts & Es).
        apply (sl_gone c tok rest e _ ts); [exact Es|]. intros He.
        destruct (finish_all_unknown c Hc next rest e H He) as ((o & Ho & Hl & Hk) & E2). split.
        -- rewrite E2 in Es. rewrite <- (app_nil_l rest) in Es at 1. now apply app_inv_tail in Es.
        -- destruct (reads_shape c tok next Hr) as (fl & o' & -> & Ro & Rf & _). exists (po_key o). split; [|exact Hl].
           rewrite Forall_forall in Rf. apply in_app_iff in Ho. destruct Ho as [Ho|[<-|[]]].
           ++ now apply (ro_key c tok o (Rf o Ho)).
           ++ now apply (ro_key c tok o' Ro).
      * exfalso. pose proof (reads_finish_length _ _ _ _ _ _ _ Hr Hf) as Hlen.
        destruct (Nat.eqb_spec (List.length args2) (List.length (tok :: rest))) as [El|El]; [|discriminate].
        cbn in El. lia.
    + rewrite finish_all_term in H. cbn in H. discriminate.
Qed.

Lemma main_step_leaves c tok rest e : no_custom c -> main_step c (tok :: rest) = Throw e ->
  step_leaves c tok rest e (try_left c (style_parsers c) (leaving_parsers c) (tok :: rest)).
Proof.
  intros Hc H. unfold main_step in H. cbv zeta in H. apply bind_Throw in H.
  destruct H as [H|(((opts & args1) & ok) & _ & H)].
  - rewrite <- (map_leaving c Hc) in H at 2. apply try_leaves; auto.
  - destruct ok; [discriminate|]. apply bind_Throw in H. destruct H as [H|(t & Ht & H)]; [now apply at_index_not_throw in H|].
    destruct args1; discriminate.
Qed.

(** ** The main loop *)

(** The run comes to the token [tok] and throws there. *)
Lemma main_loop_leaves c : no_custom c -> forall fuel args e, main_loop fuel c args = Throw e ->
  exists used tok rest, args = used ++ tok :: rest
    /\ main_step c (tok :: rest) = Throw e
    /\ step_leaves c tok rest e (main_left fuel c args)
    /\ main_left fuel c args = try_left c (style_parsers c) (leaving_parsers c) (tok :: rest).
Proof.
  intros Hc. induction fuel as [|fuel IH]; intros args e H; destruct args as [|tok rest]; cbn [main_loop] in H; try discriminate.
  cbn [main_left]. apply bind_Throw in H. destruct H as [H|((o & a) & E & H)].
  - rewrite H. exists [], tok, rest. split; [reflexivity|]. split; [exact H|]. split; [now apply main_step_leaves|reflexivity].
  - rewrite E. cbn [snd] in H |- *. apply bind_Throw in H. destruct H as [H|(more & _ & H)]; [|discriminate].
    destruct (IH a e H) as (used & t & r & Ea & Hs & Hl & Hm).
    destruct (step_suffix c _ _ _ _ (main_step_ok _ _ _ _ _ Hc E)) as (ts & Er).
    exists (tok :: ts ++ used), t, r. split; [|auto]. rewrite Er, Ea. cbn. now rewrite <- app_assoc.
Qed.

(** ** The whole run *)

Lemma late_throw c fuel args e r : no_custom c -> main_loop fuel c args = Ok r -> run fuel c args = Throw e ->
  (exists alts, ex_class e = ambiguous_option alts) \/ ex_class e = too_many_positional_options_error.
Proof.
  intros Hc Hm H. unfold run in H. rewrite Hm in H. cbn [bind] in H.
  apply bind_Throw in H. destruct H as [H|(r2 & _ & H)].
  - left. clear Hm. revert H. generalize (List.length r) as f. intros f. revert r e. induction f as [|f IH]; intros [|o r] e H; cbn [merge_pass] in H; try discriminate.
    destruct (is_empty (po_key o)).
    { apply bind_Throw in H. destruct H as [H|(x & _ & H)]; [eauto|discriminate]. }
    apply bind_Throw in H. destruct H as [H|(xd & _ & H)].
    + destruct (lookup c (po_key o)) as [x|e0| |] eqn:El; try discriminate.
      apply find_throw_ambiguous in El. destruct El as (alts & ->). cbn in H.
      apply bind_Throw in H. destruct H as [H|(t & _ & H)]; [now apply at_index_not_throw in H|].
      injection H as <-. now exists alts.
    + destruct xd as [d|].
      * cbv zeta in H. destruct (_ && _).
        -- apply bind_Throw in H. destruct H as [H|(g & _ & H)].
           ++ exfalso. revert H. generalize (to_int (vs_max (od_sem d) - Z.of_nat (List.length (po_value o)))). clear.
              revert o. induction r as [|o2 r IH]; intros o z H; cbn [grab_positional] in H; [discriminate|].
              destruct (Z.eqb z 0); [discriminate|]. destruct (negb _); [discriminate|]. destruct (Z.eqb _ _); [discriminate|].
              destruct (po_value o2) as [|v [|]]; try discriminate. destruct (po_orig o2) as [|t [|]]; try discriminate.
              destruct (Z.eqb _ _); [discriminate|]. eauto.
           ++ apply bind_Throw in H. destruct H as [H|(x & _ & H)]; [eauto|discriminate].
        -- apply bind_Throw in H. destruct H as [H|(x & _ & H)]; [eauto|discriminate].
      * apply bind_Throw in H. destruct H as [H|(x & _ & H)]; [eauto|discriminate].
  - right. cbv zeta in H. apply bind_Throw in H. destruct H as [H|(r4 & _ & H)]; [|discriminate].
    destruct (cl_positional c) as [p|]; [|discriminate]. apply name_positionals_throw in H; [now rewrite H|].
    intros x i e' _. unfold name_for_position.
    destruct (Z.ltb _ _); [destruct (nth_error _ _)|]; discriminate.
Qed.

Lemma same_lemma c fuel args : no_custom c -> snd (run_here fuel c args) = run fuel c args.
Proof.
  intros Hc. unfold run_here, run. pose proof (main_agree c Hc fuel args) as H. unfold agree, and_then in *.
  destruct (main_loop fuel c args) as [r|e|u|]; cbn [bind] in H |- *; use H; cbn [fst snd keep]; reflexivity.
Qed.

Lemma left_cases c args : no_custom c ->
  match main_loop (List.length args) c args with
  | Ok _ => left_by c args = []
  | Throw _ => left_by c args = main_left (List.length args) c args
  | _ => True
  end.
Proof.
  intros Hc. unfold left_by, run_here. pose proof (main_agree c Hc (List.length args) args) as H. unfold agree, and_then in *.
  destruct (main_loop (List.length args) c args) as [r|e|u|]; cbn [bind] in H |- *; try exact I; use H; reflexivity.
Qed.

Lemma late_left c args r : no_custom c -> main_loop (List.length args) c args = Ok r -> left_by c args = [].
Proof. intros Hc H. pose proof (left_cases c args Hc) as L. now rewrite H in L. Qed.

Lemma parse_loop c args r : parse c args = Ok r -> exists r1, main_loop (List.length args) c args = Ok r1.
Proof. unfold parse, run. intros H. apply bind_Ok in H. destruct H as (r1 & H & _). eauto. Qed.

(** A run that throws: nothing is left, or it threw at a token. *)
Lemma throw_leaves c args e : no_custom c -> parse c args = Throw e ->
  (left_by c args = [] /\ exists r, main_loop (List.length args) c args = Ok r)
  \/ exists used tok rest, args = used ++ tok :: rest /\ main_step c (tok :: rest) = Throw e
       /\ step_leaves c tok rest e (left_by c args)
       /\ left_by c args = try_left c (style_parsers c) (leaving_parsers c) (tok :: rest).
Proof.
  intros Hc H. unfold parse in H. destruct (main_loop (List.length args) c args) as [r|e0|u|] eqn:E.
  - left. split; [now apply (late_left c args r Hc)|now exists r].
  - right. assert (e0 = e) as -> by (unfold run in H; rewrite E in H; now injection H).
    destruct (main_loop_leaves c Hc _ _ _ E) as (used & tok & rest & H1 & H2 & H3 & H4).
    pose proof (left_cases c args Hc) as L. rewrite E in L. exists used, tok, rest. rewrite L. auto.
  - unfold run in H. rewrite E in H. discriminate.
  - unfold run in H. rewrite E in H. discriminate.
Qed.

Lemma parse_nil c : parse c [] = Ok [].
Proof. unfold parse, run. cbn. destruct (cl_positional c); reflexivity. Qed.

Lemma left_suffix c args e : no_custom c -> undisguised c -> parse c args = Throw e ->
  exists used, args = used ++ left_by c args /\ (used = [] -> about_token e).
Proof.
  intros Hc Hu E. destruct (throw_leaves c args e Hc E) as [(-> & r & Hm)|(used & tok & rest & -> & _ & Hl & _)].
  - exists args. rewrite app_nil_r. split; [reflexivity|]. intros ->. rewrite parse_nil in E. discriminate.
  - destruct Hl as [Ha E1|b n _ Hd' _ _|ts E1 _].
    + exists used. rewrite E1. auto.
    + unfold undisguised in Hu. rewrite Hu in Hd'. discriminate.
    + exists (used ++ tok :: ts). rewrite E1 at 1. rewrite <- app_assoc. split; [reflexivity|]. now destruct used.
Qed.

Lemma left_shorter c args e : no_custom c -> parse c args = Throw e -> List.length (left_by c args) <= List.length args.
Proof.
  intros Hc E. destruct (throw_leaves c args e Hc E) as [(-> & _)|(used & tok & rest & -> & _ & Hl & _)]; [cbn; lia|].
  rewrite app_length. cbn. destruct Hl as [_ E1|b n _ _ _ E1|ts E1 _]; apply (f_equal (@List.length _)) in E1;
    rewrite ?app_length in E1; cbn in E1; lia.
Qed.

Lemma unknown_lemma c args e : no_custom c -> parse c args = Throw e -> ex_class e = unknown_option ->
  exists before tok typed, args = before ++ tok :: left_by c args /\ names c tok typed /\ lookup c typed = Ok None.
Proof.
  intros Hc E He. destruct (throw_leaves c args e Hc E) as [(_ & r & Hm)|(used & tok & rest & -> & _ & Hl & _)].
  - destruct (late_throw c _ args e r Hc Hm E) as [(alts & Q)|Q]; rewrite Q in He; discriminate.
  - destruct Hl as [[Q|(alts & Q)] _|b n [Q|(alts & Q)] _ _ _|ts E1 Hk]; try (rewrite Q in He; discriminate).
    destruct (Hk He) as (-> & typed & Hn & Ht). cbn in E1. exists used, tok, typed. rewrite <- E1. auto.
Qed.

(** What stays in front makes the parser throw again. *)
Lemma stuck_lemma c tok rest e : no_custom c -> main_step c (tok :: rest) = Throw e ->
  parse c (tok :: rest) = Throw e
  /\ left_by c (tok :: rest) = try_left c (style_parsers c) (leaving_parsers c) (tok :: rest).
Proof.
  intros Hc H. pose proof (left_cases c (tok :: rest) Hc) as L. revert L. unfold parse, run.
  cbn [List.length main_loop main_left]. rewrite H. cbn [bind]. auto.
Qed.

Lemma again_lemma c args e : no_custom c -> undisguised c -> parse c args = Throw e ->
  (exists used tok, used <> [] /\ args = used ++ left_by c args /\ In tok used
     /\ exists rest, main_step c (tok :: rest) = Throw e)
  \/ left_by c args = []
  \/ (parse c (left_by c args) = Throw e /\ left_by c (left_by c args) = left_by c args).
Proof.
  intros Hc Hu E. destruct (throw_leaves c args e Hc E) as [(-> & _)|(used & tok & rest & -> & Hs & Hl & Ht)]; [auto|].
  destruct Hl as [Ha E1|b n _ Hd' _ _|ts E1 _].
  - right. right. destruct (stuck_lemma c tok rest e Hc Hs) as (H1 & H2). rewrite E1. rewrite H2, <- Ht. auto.
  - unfold undisguised in Hu. rewrite Hu in Hd'. discriminate.
  - left. exists (used ++ tok :: ts), tok. split; [now destruct used|]. split; [rewrite E1 at 1; now rewrite <- app_assoc|].
    split; [apply in_or_app; right; now left|]. now exists rest.
Qed.

(** ** The complaint that nothing follows the '=' *)

Definition dangles (e : exn) : Prop := ex_class e = invalid_command_line_syntax empty_adjacent_parameter.

(** A token at which the parser has balked when it was looked at as a possible value makes it throw again. *)
Lemma looks_step c ps tok rest e : no_custom c -> dangles e -> forall todo,
  (forall p, In p todo -> In p (style_parsers c)) ->
  looks_like_option todo [tok] = Throw e -> try_parsers c ps todo (tok :: rest) = Throw e.
Proof.
  intros Hc He. induction todo as [|p todo IH]; intros Hin H; cbn [looks_like_option] in H; [discriminate|].
  assert (Hin' : forall q, In q todo -> In q (style_parsers c)) by (intros q Hq; apply Hin; now right).
  cbn [try_parsers]. destruct (style_parser_local c p Hc (Hin p (or_introl eq_refl))) as [->|Hl].
  - unfold parse_terminator in H |- *. cbn [at_index nth_error bind] in H |- *.
    destruct (str_eqb_spec tok $"--") as [E|E].
    + exfalso. cbn [skipn map bind is_empty] in H. destruct todo as [|q todo]; [discriminate|]. cbn [looks_like_option] in H.
      assert (Hq : q [] = Undef UB_index).
      { specialize (Hin' q (or_introl eq_refl)). unfold style_parsers in Hin'. rewrite Hc in Hin'. cbn [app] in Hin'.
        rewrite !in_app_iff in Hin'. destruct Hin' as [Hq|[Hq|[Hq|[Hq|[Hq|Hq]]]]].
        - destruct (cl_additional c); [|destruct Hq]. now destruct Hq as [<-|[]].
        - destruct (has _ allow_long); [|destruct Hq]. now destruct Hq as [<-|[]].
        - destruct (has _ allow_long_disguise); [|destruct Hq]. now destruct Hq as [<-|[]].
        - destruct (_ && _); [|destruct Hq]. now destruct Hq as [<-|[]].
        - destruct (_ && _); [|destruct Hq]. now destruct Hq as [<-|[]].
        - now destruct Hq as [<-|[]]. }
      rewrite Hq in H. discriminate.
    + cbn [bind is_empty finish_all] in H |- *. rewrite Nat.eqb_refl, IH; auto.
  - destruct (Hl tok) as [h Hh]. rewrite Hh in H |- *. destruct h as [[os|]|e'|u|]; cbn [bind] in H |- *; try discriminate.
    + destruct os as [|o os]; cbn [is_empty] in H; [|discriminate]. cbn [finish_all bind].
      exfalso. specialize (Hh [tok]). cbn [bind] in Hh.
      destruct (style_parser_ok c p tok [tok] [] [tok] Hc (Hin p (or_introl eq_refl)) Hh) as [[_ E]|[[_ Hr]|(_ & E & _)]].
      * discriminate E.
      * destruct (reads_last _ _ _ Hr) as ([|] & o & E & _); discriminate E.
      * discriminate E.
    + cbn [is_empty finish_all bind] in H |- *. rewrite Nat.eqb_refl, IH; auto.
    + injection H as ->. reflexivity.
Qed.

Lemma grab_dangles c : no_custom c -> forall other key te n o e,
  grab_tokens c (style_parsers c) key te n o other = Throw e -> dangles e ->
  exists t more e0, grab_left c (style_parsers c) n other = t :: more
    /\ looks_like_option (style_parsers c) [t] = Throw e0 /\ dangles e0.
Proof.
  intros Hc. induction other as [|t other IH]; intros key te n o e H He; cbn [grab_tokens] in H; [discriminate|].
  cbn [grab_left]. destruct (Z.eqb n 0); [discriminate|]. apply bind_Throw in H. destruct H as [H|(fl & Hfl & H)].
  - apply with_context_Throw in H. destruct H as (e0 & H & ->). rewrite H. exists t, other, e0.
    split; [reflexivity|]. split; [exact H|]. unfold dangles in He. now rewrite context_class in He.
  - apply with_context_Ok in Hfl. rewrite Hfl. apply bind_Throw in H. destruct H as [H|(te' & Hte & H)].
    + exfalso. unfold dangles in He. destruct fl; [|discriminate]. apply bind_Throw in H.
      destruct H as [H|([d|] & _ & H)]; [| |discriminate]; apply with_context_Throw in H; destruct H as (e0 & H & ->);
        rewrite context_class in He.
      * apply find_throw_ambiguous in H. destruct H as (alts & ->). discriminate.
      * injection H as <-. discriminate.
    + destruct fl; [|eauto]. apply bind_Ok in Hte. destruct Hte as (od & Hod & Hte). apply with_context_Ok in Hod.
      rewrite Hod. destruct od; [discriminate|]. eauto.
Qed.

Lemma finish_dangles c o other e : no_custom c -> finish_option c (style_parsers c) o other = Throw e -> dangles e ->
  exists t more e0, finish_left c (style_parsers c) o other = t :: more
    /\ looks_like_option (style_parsers c) [t] = Throw e0 /\ dangles e0.
Proof.
  intros Hc H He. unfold finish_option in H. destruct (is_empty (po_key o)) eqn:Ek; [discriminate|].
  cbv zeta in H. unfold finish_left. apply bind_Throw in H. destruct H as [H|(xd & Hxd & H)].
  - exfalso. apply with_context_Throw in H. destruct H as (e0 & H & ->). unfold dangles in He. rewrite context_class in He.
    apply find_throw_ambiguous in H. destruct H as (alts & ->). discriminate.
  - apply with_context_Ok in Hxd. rewrite Hxd. cbv zeta. destruct xd as [d|].
    + destruct (Z.leb _ _); [destruct (_ && _)|].
      2: eapply grab_dangles; eauto.
      all: exfalso; apply with_context_Throw in H; destruct H as (e0 & H & ->); injection H as <-; discriminate.
    + exfalso. destruct (cl_allow_unregistered c); [discriminate|]. apply with_context_Throw in H.
      destruct H as (e0 & H & ->); injection H as <-; discriminate.
Qed.

Lemma finish_all_dangles c : no_custom c -> forall os rest e,
  finish_all c (style_parsers c) os rest = Throw e -> dangles e ->
  exists t more e0, finish_all_left c (style_parsers c) os rest = t :: more
    /\ looks_like_option (style_parsers c) [t] = Throw e0 /\ dangles e0.
Proof.
  intros Hc. induction os as [|o os IH]; intros rest e H He; [discriminate|]. destruct os as [|o2 os].
  - cbn [finish_all] in H. apply bind_Throw in H. destruct H as [H|(r & _ & H)]; [|discriminate].
    eapply finish_dangles; eauto.
  - rewrite finish_all_cons in H.
    change (finish_all_left c (style_parsers c) (o :: o2 :: os) rest)
      with (match finish_option c (style_parsers c) o [] with Ok _ => finish_all_left c (style_parsers c) (o2 :: os) rest | _ => rest end).
    apply bind_Throw in H. destruct H as [H|(r & E & H)].
    + exfalso. destruct (finish_dangles c o [] e Hc H He) as (t & more & e0 & E & _).
      destruct (finish_left_suffix c (style_parsers c) o []) as (ts & E2). rewrite E in E2. now destruct ts.
    + rewrite E. apply bind_Throw in H. destruct H as [H|(rs & _ & H)]; [|discriminate]. eauto.
Qed.

Lemma try_dangles c tok rest e : no_custom c -> dangles e -> forall todo,
  (forall x, In x todo -> In x (leaving_parsers c)) -> undisguised c ->
  try_parsers c (style_parsers c) (map fst todo) (tok :: rest) = Throw e ->
  try_left c (style_parsers c) todo (tok :: rest) = tok :: rest
  \/ exists t more e0, try_left c (style_parsers c) todo (tok :: rest) = t :: more
       /\ looks_like_option (style_parsers c) [t] = Throw e0 /\ dangles e0.
Proof.
  intros Hc He. induction todo as [|(p & k) todo IH]; intros Hin Hu H; cbn [map fst try_parsers] in H; [discriminate|].
  assert (Hp : In p (style_parsers c)).
  { rewrite <- (map_leaving c Hc). apply in_map_iff. exists (p, k). split; [reflexivity|]. apply Hin. now left. }
  cbn [try_left]. apply bind_Throw in H. destruct H as [H|((next & args1) & E & H)].
  - rewrite H. destruct (leaving_throw c p k tok rest e (Hin _ (or_introl eq_refl)) H) as (Ha & [E|(Hd & b & n & Et & E)]); [auto|].
    unfold undisguised in Hu. rewrite Hu in Hd. discriminate.
  - rewrite E. destruct (style_parser_ok c p tok rest next args1 Hc Hp E) as [[-> ->]|[[-> Hr]|(-> & -> & ->)]].
    + cbn [finish_all bind] in H |- *. rewrite Nat.eqb_refl in H |- *. apply bind_Throw in H.
      destruct H as [H|(((f & a) & ok) & _ & H)]; [|discriminate]. apply IH; auto. intros q Hq. apply Hin. now right.
    + apply bind_Throw in H. destruct H as [H|((fin & args2) & Hf & H)].
      * rewrite H. right. eapply finish_all_dangles; eauto.
      * exfalso. pose proof (reads_finish_length _ _ _ _ _ _ _ Hr Hf) as Hlen.
        destruct (Nat.eqb_spec (List.length args2) (List.length (tok :: rest))) as [El|El]; [|discriminate].
        cbn in El. lia.
    + rewrite finish_all_term in H. cbn in H. discriminate.
Qed.

Lemma looks_stays c tok rest e : no_custom c -> undisguised c -> dangles e -> looks_like_option (style_parsers c) [tok] = Throw e ->
  main_step c (tok :: rest) = Throw e /\ try_left c (style_parsers c) (leaving_parsers c) (tok :: rest) = tok :: rest.
Proof.
  intros Hc Hu He H. pose proof (looks_step c (style_parsers c) tok rest e Hc He _ (fun _ x => x) H) as Ht.
  split; [unfold main_step; now rewrite Ht|].
  assert (Hgen : forall todo, (forall x, In x todo -> In x (leaving_parsers c)) ->
    looks_like_option (map fst todo) [tok] = Throw e -> try_left c (style_parsers c) todo (tok :: rest) = tok :: rest).
  { clear H Ht. induction todo as [|(p & k) todo IH]; intros Hin H; cbn [map fst looks_like_option] in H; [discriminate|].
    assert (Hp : In p (style_parsers c)).
    { rewrite <- (map_leaving c Hc). apply in_map_iff. exists (p, k). split; [reflexivity|]. apply Hin. now left. }
    assert (Hs : try_parsers c (style_parsers c) (map fst ((p, k) :: todo)) (tok :: rest) = Throw e).
    { apply looks_step; auto. intros q Hq. apply in_map_iff in Hq. destruct Hq as (x & <- & Hx).
      rewrite <- (map_leaving c Hc). apply in_map. now apply Hin. }
    destruct (p [tok]) as [(f & t)|e1|u|] eqn:E1; cbn [bind] in H; try discriminate.
    - destruct f as [|o f]; cbn [is_empty] in H; [|discriminate].
      assert (E2 : t = [tok]).
      { destruct (style_parser_ok c p tok [] [] t Hc Hp E1) as [[_ E]|[[_ Hr]|(-> & -> & _)]]; [exact E| |].
        - destruct (reads_last _ _ _ Hr) as ([|] & o & E & _); discriminate E.
        - exfalso. destruct todo as [|(q & k2) todo]; [discriminate|]. cbn [map fst looks_like_option] in H.
          assert (Hq : In q (style_parsers c)).
          { rewrite <- (map_leaving c Hc). apply in_map_iff. exists (q, k2). split; [reflexivity|]. apply Hin. right. now left. }
          destruct (q []) as [(f2 & t2)|e2|u2|] eqn:Eq; cbn [bind] in H; try discriminate; [|now apply (style_nil c q e2 Hc) in Hq].
          unfold style_parsers in Hq. rewrite Hc in Hq. cbn [app] in Hq.
          rewrite !in_app_iff in Hq. destruct Hq as [Hq|[Hq|[Hq|[Hq|[Hq|Hq]]]]].
          + destruct (cl_additional c); [|destruct Hq]. now destruct Hq as [<-|[]].
          + destruct (has _ allow_long); [|destruct Hq]. now destruct Hq as [<-|[]].
          + destruct (has _ allow_long_disguise); [|destruct Hq]. now destruct Hq as [<-|[]].
          + destruct (_ && _); [|destruct Hq]. now destruct Hq as [<-|[]].
          + destruct (_ && _); [|destruct Hq]. now destruct Hq as [<-|[]].
          + now destruct Hq as [<-|[]]. }
      subst t.
      assert (E3 : p (tok :: rest) = Ok ([], tok :: rest)).
      { destruct (style_parser_local c p Hc Hp) as [->|Hl].
        - unfold parse_terminator in E1 |- *. cbn [at_index nth_error bind] in E1 |- *.
          destruct (str_eqb _ _); [discriminate|reflexivity].
        - destruct (Hl tok) as [h Hh]. rewrite Hh in E1 |- *. destruct h as [[os|]|e'|u|]; cbn [bind] in E1 |- *; try discriminate. reflexivity. }
      cbn [try_left]. rewrite E3. cbn [finish_all]. rewrite Nat.eqb_refl. apply IH; auto.
      intros x Hx. apply Hin. now right.
    - injection H as ->. cbn [try_left].
      assert (E3 : p (tok :: rest) = Throw e).
      { destruct (style_parser_local c p Hc Hp) as [->|Hl].
        - unfold parse_terminator in E1. cbn [at_index nth_error bind] in E1. destruct (str_eqb _ _); discriminate.
        - destruct (Hl tok) as [h Hh]. rewrite Hh in E1 |- *. destruct h as [[os|]|e'|u|]; cbn [bind] in E1 |- *; try discriminate. exact E1. }
      rewrite E3. destruct (leaving_throw c p k tok rest e (Hin _ (or_introl eq_refl)) E3) as (_ & [E|(Hd & _)]); [exact E|].
      unfold undisguised in Hu. rewrite Hu in Hd. discriminate. }
  apply Hgen; [auto|]. now rewrite (map_leaving c Hc).
Qed.

Lemma dangling_lemma c args e : no_custom c -> undisguised c -> parse c args = Throw e -> dangles e ->
  exists e', dangles e' /\ parse c (left_by c args) = Throw e' /\ left_by c (left_by c args) = left_by c args.
Proof.
  intros Hc Hu E He. destruct (throw_leaves c args e Hc E) as [(_ & r & Hm)|(used & tok & rest & -> & Hs & _ & Ht)].
  - exfalso. unfold dangles in He. destruct (late_throw c _ args e r Hc Hm E) as [(alts & Q)|Q]; rewrite Q in He; discriminate.
  - assert (H : try_parsers c (style_parsers c) (map fst (leaving_parsers c)) (tok :: rest) = Throw e).
    { rewrite (map_leaving c Hc). unfold main_step in Hs. cbv zeta in Hs. apply bind_Throw in Hs.
      destruct Hs as [Hs|(((opts & args1) & ok) & _ & Hs)]; [exact Hs|]. destruct ok; [discriminate|].
      apply bind_Throw in Hs. destruct Hs as [Hs|(t & _ & Hs)]; [now apply at_index_not_throw in Hs|]. destruct args1; discriminate. }
    destruct (try_dangles c tok rest e Hc He _ (fun _ x => x) Hu H) as [El|(t & more & e0 & El & Hlk & Hd)].
    + exists e. rewrite Ht, El. destruct (stuck_lemma c tok rest e Hc Hs) as (H1 & H2). rewrite H2, El. auto.
    + exists e0. destruct (looks_stays c t more e0 Hc Hu Hd Hlk) as (H1 & H2).
      destruct (stuck_lemma c t more e0 Hc H1) as (H3 & H4). rewrite Ht, El, H4, H2. auto.
Qed.
