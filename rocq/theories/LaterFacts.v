(** Proofs for C107 and the general form of C13. *)

From Coq Require Import List Ascii String NArith ZArith Bool Lia Arith.
From Verif Require Import Base BaseFacts Errors Spec Values OptDesc SpecLookup Positional Cmdline Build SpecCmdline
  CmdlineFacts RunFacts LookupFacts ParseFacts RejectFacts SpecLater.
Import ListNotations.

(** ** Errors stay errors *)

Lemma lacks_missing e : ex_class e = invalid_command_line_syntax missing_parameter -> lacks_value e.
Proof. intros H. unfold lacks_value, syntax_kind_of. now rewrite H. Qed.

Lemma finish_option_throw c ps o other suf e :
  finish_option c ps o other = Throw e -> lacks_value e \/ finish_option c ps o (other ++ suf) = Throw e.
Proof.
  unfold finish_option. destruct (is_empty (po_key o)); [discriminate|].
  intros H. apply bind_Throw in H. destruct H as [H|(xd & E & H)].
  { right. rewrite H. reflexivity. }
  rewrite E. cbn [bind]. destruct xd as [d|].
  - set (n := Z.of_nat (List.length (po_value o))) in *.
    destruct (Z.leb_spec (vs_min (od_sem d)) (n + Z.of_nat (List.length other))) as [H1|H1].
    + destruct (Z.leb_spec (vs_min (od_sem d)) (n + Z.of_nat (List.length (other ++ suf)))) as [H2|H2].
      2: { rewrite app_length in H2. lia. }
      destruct (_ && _); [now right|].
      right. rewrite grab_tokens_app.
      * now rewrite H.
      * destruct (Z.leb_spec n (vs_min (od_sem d))); lia.
    + left. injection H as <-. apply lacks_missing. reflexivity.
  - right. destruct (cl_allow_unregistered c); [discriminate|]. exact H.
Qed.

Lemma finish_all_throw c ps os args suf e :
  finish_all c ps os args = Throw e -> lacks_value e \/ finish_all c ps os (args ++ suf) = Throw e.
Proof.
  induction os as [|o os IH]; intros H; cbn [finish_all] in *; [discriminate|].
  destruct os as [|o2 os].
  - apply bind_Throw in H. destruct H as [H|(r & _ & H)]; [|discriminate].
    destruct (finish_option_throw _ _ _ _ suf _ H) as [L|E]; [now left|]. right. now rewrite E.
  - apply bind_Throw in H. destruct H as [H|(r & H & H2)]; [right; now rewrite H|]. rewrite H. cbn [bind].
    apply bind_Throw in H2. destruct H2 as [H2|(r2 & _ & H2)]; [|discriminate].
    destruct (IH H2) as [L|E]; [now left|]. right. rewrite E. reflexivity.
Qed.

Lemma try_parsers_throw c ps todo tok rest suf e :
  no_custom c -> tok <> dashdash -> (forall p, In p todo -> In p (style_parsers c)) ->
  try_parsers c ps todo (tok :: rest) = Throw e ->
  lacks_value e \/ try_parsers c ps todo (tok :: rest ++ suf) = Throw e.
Proof.
  intros Hc Ht. induction todo as [|p todo IH]; intros Hin H; cbn [try_parsers] in H |- *; [discriminate|].
  assert (Hcase : (p (tok :: rest) = Ok ([], tok :: rest) /\ p (tok :: rest ++ suf) = Ok ([], tok :: rest ++ suf))
                  \/ (exists next, p (tok :: rest) = Ok (next, rest) /\ p (tok :: rest ++ suf) = Ok (next, rest ++ suf))
                  \/ (exists e', p (tok :: rest) = Throw e' /\ p (tok :: rest ++ suf) = Throw e')
                  \/ (forall r, p (tok :: rest) <> Ok r /\ forall e, p (tok :: rest) <> Throw e)).
  { destruct (style_parser_local c p Hc (Hin p (or_introl eq_refl))) as [->|Hl].
    - left. unfold parse_terminator. cbn [at_index nth_error bind].
      destruct (str_eqb_spec tok $"--") as [E|E]; [exfalso; auto|]. auto.
    - destruct (Hl tok) as [h Hh]. rewrite !Hh. destruct h as [[os|]|e'|u|]; cbn [bind].
      + right. left. eauto.
      + left. auto.
      + right. right. left. eauto.
      + right. right. right. split; intros; discriminate.
      + right. right. right. split; intros; discriminate. }
  destruct Hcase as [(E1 & E2)|[(next & E1 & E2)|[(e' & E1 & E2)|Hno]]].
  - rewrite E1 in H. rewrite E2. cbn [bind finish_all] in H |- *. rewrite !Nat.eqb_refl in *.
    apply bind_Throw in H. destruct H as [H|(((x & y) & z) & _ & H)]; [|discriminate].
    destruct (IH (fun q Hq => Hin q (or_intror Hq)) H) as [L|E]; [now left|]. right. rewrite E. reflexivity.
  - rewrite E1 in H. rewrite E2. cbn [bind] in H |- *.
    apply bind_Throw in H. destruct H as [H|((fin & args2) & Hf & H)].
    + destruct (finish_all_throw _ _ _ _ suf _ H) as [L|E]; [now left|]. right. rewrite E. reflexivity.
    + destruct (Nat.eqb_spec (List.length args2) (List.length (tok :: rest))) as [E|E]; [|discriminate].
      exfalso.
      assert (Hle : List.length args2 <= List.length rest).
      { destruct (rev next) as [|o os'] eqn:Er.
        - apply (f_equal (@rev popt)) in Er. rewrite rev_involutive in Er. simpl in Er. subst next.
          cbn [finish_all] in Hf. injection Hf as <- <-. auto.
        - apply (f_equal (@rev popt)) in Er. rewrite rev_involutive in Er. simpl in Er. subst next.
          apply finish_all_snoc_ok in Hf. destruct Hf as (fs & f & _ & _ & Hf).
          eapply finish_option_length; eauto. }
      simpl in E. lia.
  - rewrite E1 in H. rewrite E2. now right.
  - exfalso. apply bind_Throw in H. destruct H as [H|(r & H & _)].
    + exact (proj2 (Hno ([], [])) _ H).
    + exact (proj1 (Hno r) H).
Qed.

Lemma main_step_throw c tok rest suf e :
  no_custom c -> tok <> dashdash -> main_step c (tok :: rest) = Throw e ->
  lacks_value e \/ main_step c (tok :: rest ++ suf) = Throw e.
Proof.
  intros Hc Ht. unfold main_step. intros H. apply bind_Throw in H. destruct H as [H|(((o & a) & ok) & H1 & H)].
  - destruct (try_parsers_throw c _ _ tok rest suf e Hc Ht (fun p Hp => Hp) H) as [L|E]; [now left|].
    right. rewrite E. reflexivity.
  - exfalso. destruct ok; [discriminate|]. apply bind_Throw in H. destruct H as [H|(t & _ & H)].
    + now apply at_index_not_throw in H.
    + destruct a; discriminate.
Qed.

(** The token "--" and the additional parser. *)
Lemma dd_cases c : no_custom c ->
  (forall rest, main_step c (dashdash :: rest) = Ok (map term_opt rest, []))
  \/ exists o, forall rest, main_step c (dashdash :: rest) = finish_all c (style_parsers c) [o] rest.
Proof.
  intros Hc. destruct (cl_additional c) as [f|] eqn:Ea.
  - destruct (f dashdash) as [a b] eqn:Ef. destruct (is_empty a) eqn:E.
    + left. intros rest.
      assert (X : exists init, style_parsers c = init ++ [parse_terminator]
                 /\ forall q, In q init -> q (dashdash :: rest) = Ok ([], dashdash :: rest)).
      { unfold style_parsers. eexists. split.
        { rewrite !app_assoc. reflexivity. }
        intros q Hin. rewrite Hc, Ea in Hin. cbn [app] in Hin. rewrite <- !app_assoc in Hin.
        change (handle_additional_parser f = q \/ In q ((if has (cl_style c) allow_long then [parse_long_option c] else [])
          ++ (if has (cl_style c) allow_long_disguise then [parse_disguised_long_option c] else [])
          ++ (if has (cl_style c) allow_short && has (cl_style c) allow_dash_for_short then [parse_short_option c] else [])
          ++ (if has (cl_style c) allow_short && has (cl_style c) allow_slash_for_short then [parse_dos_option c] else []))) in Hin.
        rewrite !in_app_iff in Hin. destruct Hin as [<-|[Hin|[Hin|[Hin|Hin]]]].
        - unfold handle_additional_parser. cbn [at_index nth_error bind]. rewrite Ef, E. reflexivity.
        - destruct (has _ _); [|destruct Hin]. destruct Hin as [<-|[]]. reflexivity.
        - destruct (has _ _); [|destruct Hin]. destruct Hin as [<-|[]].
          unfold parse_disguised_long_option, dashdash. cbn [at_index nth_error bind].
          change (char_eqb c_dash c_dash) with true. change (char_eqb c_dash c_slash) with false.
          rewrite !andb_false_r. reflexivity.
        - destruct (_ && _); [|destruct Hin]. destruct Hin as [<-|[]]. reflexivity.
        - destruct (_ && _); [|destruct Hin]. destruct Hin as [<-|[]]. reflexivity. }
      destruct X as (init & E1 & H1).
      apply main_step_hit with init parse_terminator [] (map term_opt rest) []; auto.
      * apply finish_all_term.
      * simpl. lia.
    + right. exists (mk_popt a (-1) (if is_empty b then [] else [b]) [] false false). intros rest.
      assert (Ep : exists todo, style_parsers c = handle_additional_parser f :: todo).
      { unfold style_parsers. rewrite Hc, Ea. cbn [app]. eauto. }
      destruct Ep as (todo & Ep). unfold main_step. set (ps := style_parsers c) at 1 3. rewrite Ep. cbn [try_parsers].
      replace (handle_additional_parser f (dashdash :: rest)) with (Ok ([mk_popt a (-1) (if is_empty b then [] else [b]) [] false false], rest))
        by (unfold handle_additional_parser; cbn [at_index nth_error bind]; rewrite Ef, E; reflexivity).
      cbn [bind]. set (o := mk_popt a _ _ _ _ _).
      destruct (finish_all c ps [o] rest) as [[fin args2]|e|u|] eqn:Ff; try reflexivity. cbn [bind].
      assert (Hle : List.length args2 <= List.length rest).
      { apply (finish_all_snoc_ok c ps [] o) in Ff. destruct Ff as (fs & ff & _ & _ & Ff). eapply finish_option_length; eauto. }
      destruct (Nat.eqb_spec (List.length args2) (List.length (dashdash :: rest))) as [E2|_]; [cbn [List.length] in E2; lia|].
      reflexivity.
  - left. intros rest. apply main_step_dd. split; assumption.
Qed.

(** One step, when more tokens follow. *)
Lemma step_ext c tok : no_custom c ->
  (tok = dashdash /\ forall rest, main_step c (tok :: rest) = Ok (map term_opt rest, []))
  \/ ((forall rest suf opts args', main_step c (tok :: rest) = Ok (opts, args') -> main_step c (tok :: rest ++ suf) = Ok (opts, args' ++ suf))
     /\ (forall rest suf e, main_step c (tok :: rest) = Throw e -> lacks_value e \/ main_step c (tok :: rest ++ suf) = Throw e)).
Proof.
  intros Hc. destruct (str_eqb_spec tok dashdash) as [->|Ht].
  - destruct (dd_cases c Hc) as [L|(o & L)]; [left; auto|]. right. split.
    + intros rest suf opts args' H. rewrite L in *. now apply finish_all_app.
    + intros rest suf e H. rewrite L in *. now apply finish_all_throw.
  - right. split.
    + intros rest suf opts args' H. now apply main_step_app.
    + intros rest suf e H. now apply main_step_throw.
Qed.

(** After [pre] the parser either goes on with what follows, or has met the terminator. *)
Lemma loop_ext c f : no_custom c -> forall pre r1, main_loop f c pre = Ok r1 ->
  (forall suf g, main_loop g c suf <> NoFuel ->
     main_loop (f + g) c (pre ++ suf) = let* r2 := main_loop g c suf in Ok (r1 ++ r2))
  \/ (In dashdash pre /\ forall suf g, main_loop (f + g) c (pre ++ suf) = Ok (r1 ++ map term_opt suf)).
Proof.
  intros Hc. induction f as [|f IH]; intros pre r1 H.
  - destruct pre; [|discriminate]. injection H as <-. left. intros suf g _. simpl. destruct (main_loop g c suf); reflexivity.
  - destruct pre as [|tok rest].
    + injection H as <-. left. intros suf g Hs. simpl app. rewrite (main_loop_more c g); auto; [|lia].
      destruct (main_loop g c suf); reflexivity.
    + cbn [main_loop] in H. apply bind_Ok in H. destruct H as ((o & a) & H1 & H).
      apply bind_Ok in H. destruct H as (more & H2 & [= <-]). cbn [fst snd] in *.
      destruct (step_ext c tok Hc) as [(-> & Ed)|(Hstep & _)].
      * rewrite Ed in H1. injection H1 as <- <-.
        assert (more = []) by (destruct f; now injection H2). subst more.
        right. split; [now left|]. intros suf g. cbn [Nat.add app main_loop]. rewrite Ed. cbn [bind fst snd].
        destruct (f + g); cbn [main_loop bind]; now rewrite !app_nil_r, map_app.
      * destruct (IH a more H2) as [L|(Hd & R)].
        -- left. intros suf g Hs. cbn [Nat.add app main_loop].
           rewrite (Hstep rest suf o a H1). cbn [bind fst snd]. rewrite (L suf g Hs).
           destruct (main_loop g c suf); try reflexivity. cbn [bind]. now rewrite app_assoc.
        -- right. split; [right; eapply suffix_In; eauto|]. intros suf g. cbn [Nat.add app main_loop].
           rewrite (Hstep rest suf o a H1). cbn [bind fst snd]. rewrite (R suf g).
           cbn [bind]. now rewrite app_assoc.
Qed.

Lemma loop_throw_ext c f : no_custom c -> forall pre e, main_loop f c pre = Throw e ->
  lacks_value e \/ forall suf g, main_loop (f + g) c (pre ++ suf) = Throw e.
Proof.
  intros Hc. induction f as [|f IH]; intros pre e H; [destruct pre; discriminate|].
  destruct pre as [|tok rest]; [discriminate|].
  cbn [main_loop] in H. destruct (step_ext c tok Hc) as [(-> & Ed)|(Hstep & Hthrow)].
  { rewrite Ed in H. cbn [bind snd] in H. destruct f; discriminate. }
  apply bind_Throw in H. destruct H as [H|((o & a) & H1 & H)].
  - assert (D : lacks_value e \/ ~ lacks_value e).
    { unfold lacks_value. destruct (syntax_kind_of e) as [[]|]; (now left) || (right; discriminate). }
    destruct D as [D|D]; [now left|]. right. intros suf g. cbn [Nat.add app main_loop].
    destruct (Hthrow rest suf e H) as [L|E]; [contradiction|]. rewrite E. reflexivity.
  - apply bind_Throw in H. destruct H as [H|(m & _ & H)]; [|discriminate]. cbn [snd] in H.
    destruct (IH a e H) as [L|R]; [now left|]. right. intros suf g. cbn [Nat.add app main_loop].
    rewrite (Hstep rest suf o a H1). cbn [bind snd]. rewrite R. reflexivity.
Qed.

(** ** The second pass on a longer list *)

Lemma grab_ext n o fol suf o' fol' :
  grab_positional n o fol = Ok (o', fol') ->
  grab_positional n o (fol ++ suf) = Ok (o', fol' ++ suf)
  \/ (fol' = [] /\ forall o2 fol2, grab_positional n o (fol ++ suf) = Ok (o2, fol2) ->
        exists vs ts, o2 = with_more o' vs ts /\ vs <> [] /\ List.length ts = List.length vs).
Proof.
  revert n o; induction fol as [|p fol IH]; intros n o H; cbn [grab_positional app] in *.
  - injection H as <- <-. cbn [app].
    assert (G : forall suf n o o2 fol2, grab_positional n o suf = Ok (o2, fol2) ->
       (o2 = o /\ fol2 = suf) \/ exists vs ts, o2 = with_more o vs ts /\ vs <> [] /\ List.length ts = List.length vs).
    { clear. induction suf as [|s suf IH]; intros n o o2 fol2 H; cbn [grab_positional] in H.
      - injection H as <- <-. auto.
      - destruct (Z.eqb n 0); [injection H as <- <-; auto|].
        destruct (negb _); [injection H as <- <-; auto|].
        destruct (Z.eqb (po_pos s) _); [injection H as <- <-; auto|].
        destruct (po_value s) as [|v [|]], (po_orig s) as [|t [|]]; try discriminate.
        destruct (Z.eqb n INT_MIN); [discriminate|]. right.
        destruct (IH _ _ _ _ H) as [(-> & _)|(vs & ts & -> & Hv & Hl)].
        + exists [v], [t]. repeat split. discriminate.
        + exists (v :: vs), (t :: ts). unfold with_more. cbn [po_key po_pos po_value po_orig po_unreg po_ci].
          rewrite <- !app_assoc. repeat split; [discriminate|]. cbn [List.length]. now rewrite Hl. }
    destruct (grab_positional n o suf) as [[o2 fol2]| | |] eqn:E.
    + destruct (G _ _ _ _ _ E) as [(-> & ->)|R]; [now left|]. right. split; [reflexivity|]. intros o3 f3 [= <- <-]. exact R.
    + right. split; [reflexivity|]. intros; discriminate.
    + right. split; [reflexivity|]. intros; discriminate.
    + right. split; [reflexivity|]. intros; discriminate.
  - destruct (Z.eqb n 0); [injection H as <- <-; now left|].
    destruct (negb _); [injection H as <- <-; now left|].
    destruct (Z.eqb (po_pos p) _); [injection H as <- <-; now left|].
    destruct (po_value p) as [|v [|]], (po_orig p) as [|t [|]]; try discriminate.
    destruct (Z.eqb n INT_MIN); [discriminate|]. exact (IH _ _ H).
Qed.

(** What the second pass makes of a longer list. *)
Inductive grown (c : cmdline) : list popt -> list popt -> Prop :=
| gr_same m tl : grown c m (m ++ tl)
| gr_more q o vs ts tl d :
    lookup c (po_key o) = Ok (Some d) -> po_key o <> [] ->
    (vs_min (od_sem d) < vs_max (od_sem d))%Z ->
    vs <> [] -> List.length ts = List.length vs ->
    grown c (q ++ [o]) (q ++ with_more o vs ts :: tl).

Lemma grown_cons c x m M : grown c m M -> grown c (x :: m) (x :: M).
Proof.
  destruct 1 as [m tl|q o vs ts tl d].
  - exact (gr_same c (x :: m) tl).
  - apply (gr_more c (x :: q) o vs ts tl d); auto.
Qed.

Lemma merge_ext c f : forall r1 m1 r2 g M, merge_pass f c r1 = Ok m1 -> merge_pass g c (r1 ++ r2) = Ok M -> grown c m1 M.
Proof.
  induction f as [|f IH]; intros r1 m1 r2 g M H HM.
  - destruct r1; [|discriminate]. injection H as <-. exact (gr_same c [] M).
  - destruct r1 as [|o rest]; [injection H as <-; exact (gr_same c [] M)|].
    destruct g as [|g]; [discriminate|]. cbn [app merge_pass] in H, HM.
    assert (Hone : forall x lf, (let* r := merge_pass f c lf in Ok (x :: r)) = Ok m1 ->
              (let* r := merge_pass g c (lf ++ r2) in Ok (x :: r)) = Ok M -> grown c m1 M).
    { intros x lf E1 E2. apply bind_Ok in E1. destruct E1 as (r & E1 & [= <-]).
      apply bind_Ok in E2. destruct E2 as (r' & E2 & [= <-]). apply grown_cons. eauto. }
    destruct (is_empty (po_key o)) eqn:Ek; [eauto|]. apply is_empty_false in Ek.
    apply bind_Ok in H. destruct H as (xd & Exd & H). rewrite Exd in HM. cbn [bind] in HM.
    destruct xd as [d|]; [|eauto].
    destruct (Z.ltb (vs_min (od_sem d)) _ && _) eqn:Eroom; [|eauto].
    apply bind_Ok in H. destruct H as ((gr & lf) & Hg & H).
    apply bind_Ok in HM. destruct HM as ((gr2 & lf2) & Hg2 & HM). cbn [fst snd] in H, HM.
    destruct (grab_ext _ _ _ r2 _ _ Hg) as [E|(-> & E)].
    + rewrite E in Hg2. injection Hg2 as <- <-. eauto.
    + destruct (E _ _ Hg2) as (vs & ts & -> & Hv & Hl).
      assert (Em : m1 = [gr]). { destruct f; cbn [merge_pass bind] in H; now injection H as <-. } subst m1.
      apply bind_Ok in HM. destruct HM as (tl & _ & [= <-]).
      apply andb_true_iff in Eroom. destruct Eroom as (Er & _). apply Z.ltb_lt in Er.
      assert (Kg : forall fol n a b fol', grab_positional n a fol = Ok (b, fol') -> po_key b = po_key a).
      { clear. induction fol as [|p fol IH]; intros n a b fol' H; cbn [grab_positional] in H.
        - now injection H as <- <-.
        - destruct (Z.eqb n 0); [now injection H as <- <-|].
          destruct (negb _); [now injection H as <- <-|].
          destruct (Z.eqb (po_pos p) _); [now injection H as <- <-|].
          destruct (po_value p) as [|v [|]], (po_orig p) as [|t [|]]; try discriminate.
          destruct (Z.eqb n INT_MIN); [discriminate|]. exact (IH _ _ _ _ H). }
      apply Kg in Hg.
      apply (gr_more c [] gr vs ts tl d); auto.
      * rewrite Hg. destruct (lookup c (po_key o)) as [x|e| |]; try discriminate; [exact Exd|].
        destruct (has_option_name _); [|discriminate]. apply bind_Ok in Exd. destruct Exd as (t & _ & Exd). discriminate.
      * rewrite Hg. exact Ek.
Qed.

Lemma merge_throw_ext c f : forall r1 e r2 g, merge_pass f c r1 = Throw e ->
  merge_pass g c (r1 ++ r2) = Throw e \/ merge_pass g c (r1 ++ r2) = NoFuel.
Proof.
  induction f as [|f IH]; intros r1 e r2 g H; [destruct r1; discriminate|].
  destruct r1 as [|o rest]; [discriminate|].
  destruct g as [|g]; [now right|]. cbn [app merge_pass] in H |- *.
  assert (Hone : forall x lf, (let* r := merge_pass f c lf in Ok (x :: r)) = Throw e ->
            (let* r := merge_pass g c (lf ++ r2) in Ok (x :: r)) = Throw e
            \/ (let* r := merge_pass g c (lf ++ r2) in Ok (x :: r)) = NoFuel).
  { intros x lf E. apply bind_Throw in E. destruct E as [E|(r & _ & E)]; [|discriminate].
    destruct (IH _ _ r2 g E) as [Q|Q]; rewrite Q; auto. }
  destruct (is_empty (po_key o)) eqn:Ek; [eauto|].
  apply bind_Throw in H. destruct H as [H|(xd & Exd & H)]; [left; now rewrite H|].
  rewrite Exd. cbn [bind]. destruct xd as [d|]; [|eauto].
  destruct (Z.ltb (vs_min (od_sem d)) _ && _) eqn:Eroom; [|eauto].
  apply bind_Throw in H. destruct H as [H|((gr & lf) & Hg & H)].
  - exfalso. revert H. clear. generalize (to_int (vs_max (od_sem d) - Z.of_nat (List.length (po_value o)))). intros n.
    revert n o. induction rest as [|p rest IH]; intros n o H; cbn [grab_positional] in H; [discriminate|].
    destruct (Z.eqb n 0); [discriminate|]. destruct (negb _); [discriminate|].
    destruct (Z.eqb (po_pos p) _); [discriminate|].
    destruct (po_value p) as [|v [|]], (po_orig p) as [|t [|]]; try discriminate.
    destruct (Z.eqb n INT_MIN); [discriminate|]. exact (IH _ _ H).
  - cbn [fst snd] in H. destruct (grab_ext _ _ _ r2 _ _ Hg) as [E|(-> & _)].
    + rewrite E. cbn [bind fst snd]. eauto.
    + destruct f; discriminate.
Qed.

(** ** Naming *)

Lemma name_ext p : forall a b k r, name_positionals p k (a ++ b) = Ok r ->
  exists x y k', name_positionals p k a = Ok x /\ name_positionals p k' b = Ok y /\ r = x ++ y.
Proof.
  induction a as [|o a IH]; intros b k r H; cbn [app name_positionals] in *.
  - exists [], r, k. auto.
  - destruct (Z.eqb (po_pos o) (-1)).
    + apply bind_Ok in H. destruct H as (r' & H & [= <-]). destruct (IH _ _ _ H) as (x & y & k' & E & Ey & ->).
      exists (o :: x), y, k'. rewrite E. auto.
    + destruct (Z.leb _ _); [discriminate|]. apply bind_Ok in H. destruct H as (n & -> & H).
      apply bind_Ok in H. destruct H as (r' & H & [= <-]). destruct (IH _ _ _ H) as (x & y & k' & E & Ey & ->).
      cbn [bind]. rewrite E. eexists (_ :: x), y, k'. cbn [bind]. auto.
Qed.

Lemma number_grown c m M : grown c m M -> Forall pre_opt m ->
  exists q tl, (number_positionals 0 m = q /\ number_positionals 0 M = q ++ tl)
  \/ exists o vs ts d, number_positionals 0 m = q ++ [o] /\ number_positionals 0 M = q ++ with_more o vs ts :: tl
       /\ lookup c (po_key o) = Ok (Some d) /\ po_pos o = (-1)%Z
       /\ (vs_min (od_sem d) < vs_max (od_sem d))%Z /\ vs <> [] /\ List.length ts = List.length vs.
Proof.
  intros G Hp. destruct G as [m tl|q o vs ts tl d Hl Hk Hlt Hv Hts].
  - rewrite number_app. eauto.
  - apply Forall_app in Hp. destruct Hp as (_ & Hp). inversion Hp as [|? ? Ho _]; subst. destruct Ho as [Ho|Ho]; [contradiction|].
    rewrite !number_app. cbn [number_positionals]. unfold with_more at 1. cbn [po_key]. apply is_empty_false in Hk. rewrite Hk.
    do 2 eexists. right. exists o, vs, ts, d. split; [reflexivity|]. split; [|auto].
    unfold with_more. cbn [po_key]. rewrite Hk. reflexivity.
Qed.

Lemma flag_more c o vs ts : set_case_flag c (with_more o vs ts) = with_more (set_case_flag c o) vs ts.
Proof. reflexivity. Qed.

(** ** The theorems *)

Lemma parse_parts c args r : parse c args = Ok r ->
  exists r1 r2 r4, main_loop (List.length args) c args = Ok r1 /\ merge_pass (List.length r1) c r1 = Ok r2
   /\ (match cl_positional c with Some p => name_positionals p 0 (number_positionals 0 r2) | None => Ok (number_positionals 0 r2) end = Ok r4)
   /\ r = map (set_case_flag c) r4.
Proof.
  unfold parse, run. intros H. apply bind_Ok in H. destruct H as (r1 & H1 & H). apply bind_Ok in H. destruct H as (r2 & H2 & H).
  apply bind_Ok in H. destruct H as (r4 & H4 & [= <-]). exists r1, r2, r4. auto.
Qed.

(** The longer list of options of the first pass. *)
Lemma loop_longer c pre rest r1 R : no_custom c -> main_loop (List.length pre) c pre = Ok r1 ->
  main_loop (List.length (pre ++ rest)) c (pre ++ rest) = Ok R -> exists r2, R = r1 ++ r2.
Proof.
  intros Hp H1 HR. rewrite app_length in HR. destruct (loop_ext c _ Hp _ _ H1) as [L|(_ & L)].
  - destruct (main_loop (List.length rest) c rest) as [r2|e|u|] eqn:E.
    + rewrite L, E in HR by congruence. injection HR as <-. eauto.
    + rewrite L, E in HR by congruence. discriminate.
    + rewrite L, E in HR by congruence. discriminate.
    + exfalso. revert E. apply main_loop_nofuel; auto.
  - rewrite L in HR. injection HR as <-. eauto.
Qed.

Lemma accepted_lemma c pre rest r r' : no_custom c -> parse c pre = Ok r -> parse c (pre ++ rest) = Ok r' -> continues c r r'.
Proof.
  intros Hp H H'. apply parse_parts in H, H'.
  destruct H as (r1 & r2 & r4 & H1 & H2 & H4 & ->). destruct H' as (R1 & R2 & R4 & G1 & G2 & G4 & ->).
  destruct (loop_longer c pre rest r1 R1 Hp H1 G1) as (x & ->).
  pose proof (merge_ext c _ _ _ _ _ _ H2 G2) as G.
  assert (Hpre : Forall pre_opt r2).
  { eapply merged_pre; [eapply merge_ok; eauto|]. eapply steps_pre. eapply main_loop_steps; eauto. }
  destruct (number_grown c _ _ G Hpre) as (q & tl & [(E1 & E2)|(o & vs & ts & d & E1 & E2 & Hl & Hpos & Hlt & Hv & Hts)]).
  - rewrite E1 in H4. rewrite E2 in G4. destruct (cl_positional c) as [p|].
    + destruct (name_ext p _ _ _ _ G4) as (a & b & k & Ea & _ & ->). rewrite H4 in Ea. injection Ea as <-.
      rewrite map_app. apply ct_same.
    + injection H4 as <-. injection G4 as <-. rewrite map_app. apply ct_same.
  - rewrite E1 in H4. rewrite E2 in G4.
    assert (F : exists q' tl', r4 = q' ++ [o] /\ R4 = q' ++ with_more o vs ts :: tl').
    { destruct (cl_positional c) as [p|].
      - destruct (name_ext p _ _ _ _ G4) as (a & b & k & Ea & Eb & ->).
        destruct (name_ext p _ _ _ _ H4) as (a' & b' & k' & Ea' & Eb' & ->). rewrite Ea in Ea'. injection Ea' as <-.
        cbn [name_positionals with_more po_pos] in Eb, Eb'. rewrite Hpos in Eb, Eb'. cbn [Z.eqb bind] in Eb, Eb'.
        cbn in Eb'. injection Eb' as <-. cbn in Eb. apply bind_Ok in Eb. destruct Eb as (tl' & _ & [= <-]).
        exists a, tl'. split; reflexivity.
      - injection H4 as <-. injection G4 as <-. eauto. }
    destruct F as (q' & tl' & -> & ->). rewrite !map_app. cbn [map]. rewrite flag_more.
    apply (ct_more c _ (set_case_flag c o) vs ts _ d); auto.
Qed.

Lemma rejected_lemma c pre rest e r' : no_custom c -> parse c pre = Throw e -> parse c (pre ++ rest) = Ok r' -> lacks_value e.
Proof.
  intros Hp H H'. apply parse_parts in H'. destruct H' as (R1 & R2 & R4 & G1 & G2 & G4 & _).
  unfold parse, run in H. apply bind_Throw in H. destruct H as [H|(r1 & H1 & H)].
  { destruct (loop_throw_ext c _ Hp _ _ H) as [L|L]; [exact L|]. rewrite app_length, L in G1. discriminate. }
  destruct (loop_longer c pre rest r1 R1 Hp H1 G1) as (x & ->).
  apply bind_Throw in H. destruct H as [H|(r2 & H2 & H)].
  { destruct (merge_throw_ext c _ _ _ x (List.length (r1 ++ x)) H) as [E|E]; rewrite E in G2; discriminate. }
  apply bind_Throw in H. destruct H as [H|(r4 & _ & H)]; [|discriminate].
  destruct (cl_positional c) as [p|]; [|discriminate].
  pose proof (merge_ext c _ _ _ _ _ _ H2 G2) as G.
  assert (Hpre : Forall pre_opt r2).
  { eapply merged_pre; [eapply merge_ok; eauto|]. eapply steps_pre. eapply main_loop_steps; eauto. }
  exfalso.
  destruct (number_grown c _ _ G Hpre) as (q & tl & [(E1 & E2)|(o & vs & ts & d & E1 & E2 & Hl & Hpos & Hlt & Hv & Hts)]).
  - rewrite E1 in H. rewrite E2 in G4. destruct (name_ext p _ _ _ _ G4) as (a & b & k & Ea & _ & _). congruence.
  - rewrite E1 in H. rewrite E2 in G4. destruct (name_ext p _ _ _ _ G4) as (a & b & k & Ea & _ & _).
    revert H Ea. generalize 0%Z at 1 2. clear - Hpos. revert a. induction q as [|o2 q IH]; intros a z H Ea; cbn [app name_positionals] in H, Ea.
    + rewrite Hpos in H. discriminate.
    + destruct (Z.eqb (po_pos o2) (-1)).
      * apply bind_Ok in Ea. destruct Ea as (a' & Ea & _). apply bind_Throw in H. destruct H as [H|(w & _ & H)]; [eauto|discriminate].
      * destruct (Z.leb _ _); [discriminate|]. apply bind_Ok in Ea. destruct Ea as (n & En & Ea). rewrite En in H. cbn [bind] in H.
        apply bind_Ok in Ea. destruct Ea as (a' & Ea & _). apply bind_Throw in H. destruct H as [H|(w & _ & H)]; [eauto|discriminate].
Qed.

Lemma same_error_lemma c pre rest e : no_custom c -> parse c pre = Throw e -> ~ lacks_value e ->
  ex_class e <> too_many_positional_options_error -> (forall alts, ex_class e <> ambiguous_option alts) ->
  parse c (pre ++ rest) = Throw e.
Proof.
  intros Hp H Hm Ht Ha. unfold parse, run in H. apply bind_Throw in H. destruct H as [H|(r1 & H1 & H)].
  { destruct (loop_throw_ext c _ Hp _ _ H) as [L|L]; [contradiction|]. unfold parse, run. rewrite app_length, L. reflexivity. }
  exfalso. apply bind_Throw in H. destruct H as [H|(r2 & H2 & H)].
  - revert H. clear - Ha. generalize (List.length r1) as f. intros f. revert r1. induction f as [|f IH]; intros [|o rest] H; try discriminate.
    cbn [merge_pass] in H.
    assert (Hone : forall x lf, (let* r := merge_pass f c lf in Ok (x :: r)) = Throw e -> False).
    { intros x lf E. apply bind_Throw in E. destruct E as [E|(r & _ & E)]; [eauto|discriminate]. }
    destruct (is_empty (po_key o)); [eauto|]. apply bind_Throw in H. destruct H as [H|(xd & _ & H)].
    + destruct (lookup c (po_key o)) as [x|e0| |] eqn:El; try discriminate.
      assert (exists alts, e0 = mk_ambiguous alts) as (alts & ->) by (eapply find_throw_ambiguous; exact El).
      cbn in H. apply bind_Throw in H. destruct H as [H|(t & _ & [= <-])]; [now apply at_index_not_throw in H|].
      apply (Ha alts). reflexivity.
    + destruct xd as [d|]; [|eauto]. destruct (_ && _); [|eauto].
      apply bind_Throw in H. destruct H as [H|((gr & lf) & Hg & H)]; [|eauto].
      revert H. clear. generalize (to_int (vs_max (od_sem d) - Z.of_nat (List.length (po_value o)))). intros n.
      revert n o. induction rest as [|p rest IH]; intros n o H; cbn [grab_positional] in H; [discriminate|].
      destruct (Z.eqb n 0); [discriminate|]. destruct (negb _); [discriminate|].
      destruct (Z.eqb (po_pos p) _); [discriminate|].
      destruct (po_value p) as [|v [|]], (po_orig p) as [|t [|]]; try discriminate.
      destruct (Z.eqb n INT_MIN); [discriminate|]. exact (IH _ _ H).
  - apply bind_Throw in H. destruct H as [H|(r4 & _ & H)]; [|discriminate].
    destruct (cl_positional c) as [p|]; [|discriminate]. revert H. clear - Ht. generalize 0%Z at 1.
    induction (number_positionals 0 r2) as [|o os IH]; intros z H; cbn [name_positionals] in H; [discriminate|].
    destruct (Z.eqb _ _).
    + apply bind_Throw in H. destruct H as [H|(w & _ & H)]; [eauto|discriminate].
    + destruct (Z.leb _ _); [injection H as <-; now apply Ht|].
      apply bind_Throw in H. destruct H as [H|(n & _ & H)].
      * unfold name_for_position in H. repeat (match type of H with context [match ?x with _ => _ end] => destruct x end; try discriminate).
      * apply bind_Throw in H. destruct H as [H|(w & _ & H)]; [eauto|discriminate].
Qed.

(** ** The terminator, met or not *)

Lemma reached_lemma c pre r : plain c -> cl_positional c = None -> parse c pre = Ok r ->
  (forall rest, exists tail, parse c (pre ++ dashdash :: rest) = Ok (r ++ tail) /\ positional_items (count_positionals r) rest tail)
  \/ (In dashdash pre /\ forall rest, exists tail, parse c (pre ++ rest) = Ok (r ++ tail) /\ positional_items (count_positionals r) rest tail).
Proof.
  intros Hpl Hn H. pose proof (proj1 Hpl) as Hp. apply parse_parts in H. destruct H as (r1 & r2 & r4 & H1 & H2 & H4 & ->). rewrite Hn in H4. injection H4 as <-.
  assert (Hpre : Forall pre_opt r2).
  { eapply merged_pre; [eapply merge_ok; eauto|]. eapply steps_pre. eapply main_loop_steps; eauto. }
  assert (Fin : forall args rest, main_loop (List.length args) c args = Ok (r1 ++ map term_opt rest) ->
    exists tail, parse c args = Ok (map (set_case_flag c) (number_positionals 0 r2) ++ tail)
      /\ positional_items (count_positionals (map (set_case_flag c) (number_positionals 0 r2))) rest tail).
  { intros args rest E1.
    assert (E2 : merge_pass (List.length (r1 ++ map term_opt rest)) c (r1 ++ map term_opt rest) = Ok (r2 ++ map term_opt rest)).
    { rewrite (merge_app_full c r1 _ r2); auto; [rewrite merge_term; reflexivity|]. destruct rest; simpl; auto. }
    exists (map (set_case_flag c) (number_positionals (Z.of_nat (count_empty r2)) (map term_opt rest))). split.
    - unfold parse, run. rewrite E1. cbn [bind]. rewrite E2. cbn [bind]. rewrite Hn. cbn [bind].
      rewrite number_app, map_app. reflexivity.
    - rewrite case_count, number_count by (auto; lia). apply number_term. lia. }
  destruct (loop_ext c _ Hp _ _ H1) as [L|(Hd & L)].
  - left. intros rest. apply Fin. rewrite app_length. rewrite L; cbn [List.length]; rewrite main_loop_dd by auto; [reflexivity|discriminate].
  - right. split; [exact Hd|]. intros rest. apply Fin. rewrite app_length. apply L.
Qed.
