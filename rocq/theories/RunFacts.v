(** The passes of the command line parser: fuel, conservation of tokens, and the shape
    of the result. *)

From Coq Require Import List Ascii String NArith ZArith Bool Arith Lia.
From Verif Require Import Base Errors Spec BaseFacts Values OptDesc SpecLookup LookupFacts
  Positional Cmdline SpecCmdline CmdlineFacts.
Import ListNotations.

(** ** Nothing but the loops consumes fuel *)

Lemma bind_not_nofuel A B (x : outcome A) (f : A -> outcome B) :
  x <> NoFuel -> (forall a, x = Ok a -> f a <> NoFuel) -> bind x f <> NoFuel.
Proof. destruct x; simpl; intros H1 H2; auto; discriminate. Qed.

Lemma with_context_not_nofuel A n t s (x : outcome A) : x <> NoFuel -> with_context n t s x <> NoFuel.
Proof. intros H E. apply with_context_NoFuel in E. auto. Qed.

Lemma lookup_nofuel c name : lookup c name <> NoFuel.
Proof. apply find_never_nofuel. Qed.

Lemma parse_long_nofuel c args : parse_long_option c args <> NoFuel.
Proof.
  destruct args as [|tok rest]; [discriminate|].
  destruct (parse_long_cases c tok rest)
    as [[H _]|[(n & _ & _ & _ & H)|[(n & v & _ & _ & _ & H)|(n & _ & _ & H)]]]; rewrite H; discriminate.
Qed.

Lemma short_loop_nofuel c tok name adj acc : short_loop c tok name adj acc <> NoFuel.
Proof.
  revert name acc; induction adj as [|a adj IH]; intros name acc; cbn [short_loop];
    apply bind_not_nofuel; try (apply with_context_not_nofuel, find_never_nofuel).
  - intros d _. destruct d; discriminate.
  - intros d _. destruct d as [d|]; [|discriminate]. destruct (_ && _); [apply IH|discriminate].
Qed.

Lemma style_parser_nofuel c p args :
  no_custom c -> In p (style_parsers c) -> p args <> NoFuel.
Proof.
  unfold no_custom, style_parsers. intros Hc Hin. rewrite Hc in Hin. cbn [app] in Hin.
  destruct args as [|tok rest].
  - repeat (apply in_app_or in Hin; destruct Hin as [Hin|Hin]);
      try match type of Hin with
          | context [if ?b then _ else _] => destruct b
          | context [match ?x with Some _ => _ | None => _ end] => destruct x
          end;
      try destruct Hin as [<-|[]]; try destruct Hin; discriminate.
  - rewrite !in_app_iff in Hin.
    destruct Hin as [Hin|[Hin|[Hin|[Hin|[Hin|[Hin|[]]]]]]].
    + destruct (cl_additional c) as [f|]; [|destruct Hin]. destruct Hin as [<-|[]].
      unfold handle_additional_parser. cbn. destruct (f tok) as [a b]. destruct (is_empty a); discriminate.
    + destruct (has _ _); [|destruct Hin]. destruct Hin as [<-|[]]. apply parse_long_nofuel.
    + destruct (has _ _); [|destruct Hin]. destruct Hin as [<-|[]].
      unfold parse_disguised_long_option. cbn [at_index nth_error bind].
      destruct tok as [|c1 [|c2 s]]; try discriminate. destruct (_ || _); [|discriminate].
      apply bind_not_nofuel; [apply with_context_not_nofuel, lookup_nofuel|].
      intros [d|] _; [|discriminate]. cbn [erase_front bind].
      apply with_context_not_nofuel, parse_long_nofuel.
    + destruct (_ && _); [|destruct Hin]. destruct Hin as [<-|[]].
      unfold parse_short_option. cbn [at_index nth_error bind].
      destruct tok as [|c1 [|c2 s]]; try discriminate. destruct (_ && _); [|discriminate].
      apply bind_not_nofuel; [apply short_loop_nofuel|]. intros r _. discriminate.
    + destruct (_ && _); [|destruct Hin]. destruct Hin as [<-|[]].
      unfold parse_dos_option. cbn [at_index nth_error bind].
      destruct tok as [|c1 [|c2 s]]; try discriminate. destruct (char_eqb _ _); discriminate.
    + subst p. unfold parse_terminator. cbn [at_index nth_error bind].
      destruct (str_eqb _ _); discriminate.
Qed.

Section NoFuelPs.
  Variables (c : cmdline) (ps : list style_parser).
  Hypothesis Hps : forall p args, In p ps -> p args <> NoFuel.

  Lemma looks_like_nofuel qs args :
    (forall q, In q qs -> In q ps) -> looks_like_option qs args <> NoFuel.
  Proof.
    revert args; induction qs as [|q qs IH]; intros args Hin; cbn [looks_like_option]; [discriminate|].
    apply bind_not_nofuel; [apply Hps, Hin; now left|].
    intros [f n] _. destruct (is_empty f); [|discriminate]. apply IH. intros; apply Hin; now right.
  Qed.

  Lemma grab_tokens_nofuel key t n opt other : grab_tokens c ps key t n opt other <> NoFuel.
  Proof.
    revert t n opt; induction other as [|tok rest IH]; intros t n opt; cbn [grab_tokens]; [discriminate|].
    destruct (Z.eqb n 0); [discriminate|].
    apply bind_not_nofuel; [apply with_context_not_nofuel, looks_like_nofuel; auto|].
    intros f _. apply bind_not_nofuel; [|intros; apply IH].
    destruct f; [|discriminate].
    apply bind_not_nofuel; [apply with_context_not_nofuel, lookup_nofuel|]. intros [d|] _; discriminate.
  Qed.

  Lemma finish_option_nofuel opt other : finish_option c ps opt other <> NoFuel.
  Proof.
    unfold finish_option. destruct (is_empty (po_key opt)); [discriminate|].
    apply bind_not_nofuel; [apply with_context_not_nofuel, lookup_nofuel|].
    intros [d|] _.
    - destruct (Z.leb _ _); [|discriminate]. destruct (_ && _); [discriminate|]. apply grab_tokens_nofuel.
    - destruct (cl_allow_unregistered c); discriminate.
  Qed.

  Lemma finish_all_nofuel os args : finish_all c ps os args <> NoFuel.
  Proof.
    induction os as [|o os IH]; [discriminate|]. cbn [finish_all]. destruct os as [|o2 os].
    - apply bind_not_nofuel; [apply finish_option_nofuel|]. discriminate.
    - apply bind_not_nofuel; [apply finish_option_nofuel|]. intros r0 _.
      apply bind_not_nofuel; [apply IH|]. discriminate.
  Qed.

  Lemma try_parsers_nofuel todo args :
    (forall p, In p todo -> In p ps) -> try_parsers c ps todo args <> NoFuel.
  Proof.
    revert args; induction todo as [|p todo IH]; intros args Hin; cbn [try_parsers]; [discriminate|].
    apply bind_not_nofuel; [apply Hps, Hin; now left|]. intros [next a1] _.
    apply bind_not_nofuel; [apply finish_all_nofuel|]. intros [fin a2] _.
    destruct (Nat.eqb _ _); [|discriminate].
    apply bind_not_nofuel; [apply IH; intros; apply Hin; now right|]. intros [[f a] o] _. discriminate.
  Qed.
End NoFuelPs.

Lemma at_index_nofuel A (l : list A) n : at_index l n <> NoFuel.
Proof. unfold at_index. destruct (nth_error l n); discriminate. Qed.

Lemma main_step_nofuel c args : no_custom c -> main_step c args <> NoFuel.
Proof.
  intros Hc. unfold main_step.
  apply bind_not_nofuel.
  { apply try_parsers_nofuel; auto. intros; eapply style_parser_nofuel; eauto. }
  intros [[o a] ok] _. destruct ok; [discriminate|].
  apply bind_not_nofuel; [apply at_index_nofuel|]. intros tok _.
  apply bind_not_nofuel; [destruct a; discriminate|]. discriminate.
Qed.

Lemma main_loop_nofuel c fuel args :
  no_custom c -> List.length args <= fuel -> main_loop fuel c args <> NoFuel.
Proof.
  intros Hc. revert args; induction fuel as [|fuel IH]; intros args Hl; destruct args as [|tok rest];
    cbn [main_loop]; try discriminate; simpl in Hl; try lia.
  apply bind_not_nofuel; [apply main_step_nofuel; auto|]. intros [o a] Hs.
  apply main_step_ok in Hs; auto. apply step_length in Hs.
  apply bind_not_nofuel; [apply IH; simpl; lia|]. discriminate.
Qed.

Lemma main_loop_more c fuel fuel' args :
  main_loop fuel c args <> NoFuel -> fuel <= fuel' -> main_loop fuel' c args = main_loop fuel c args.
Proof.
  revert fuel' args; induction fuel as [|fuel IH]; intros fuel' args H Hle.
  - destruct args; [destruct fuel'; reflexivity|]. simpl in H. congruence.
  - destruct fuel' as [|fuel']; [lia|]. destruct args as [|tok rest]; [reflexivity|].
    cbn [main_loop] in H |- *.
    destruct (main_step c (tok :: rest)) as [r| | |] eqn:E; auto. cbn [bind] in H |- *.
    rewrite IH; auto; [|lia]. intros E2. rewrite E2 in H. simpl in H. congruence.
Qed.

(** ** The second pass *)

Lemma grab_positional_nofuel n o fol : grab_positional n o fol <> NoFuel.
Proof.
  revert n o; induction fol as [|p fol IH]; intros n o; cbn [grab_positional]; [discriminate|].
  destruct (Z.eqb n 0); [discriminate|]. destruct (negb _); [discriminate|].
  destruct (Z.eqb (po_pos p) _); [discriminate|].
  destruct (po_value p) as [|v [|]], (po_orig p) as [|t [|]]; try discriminate.
  destruct (Z.eqb n _); [discriminate|]. apply IH.
Qed.

(** What the second pass does to one option: it takes the one-token positional options
    that follow. *)
Definition plain_pos (o : popt) : Prop :=
  po_key o = [] /\ po_pos o <> INT_MAX /\ exists v t, po_value o = [v] /\ po_orig o = [t].

Definition absorb (o : popt) (ps : list popt) : popt :=
  mk_popt (po_key o) (po_pos o) (po_value o ++ List.concat (map po_value ps))
    (po_orig o ++ List.concat (map po_orig ps)) (po_unreg o) (po_ci o).

Lemma absorb_nil o : absorb o [] = o.
Proof. unfold absorb. simpl. rewrite !app_nil_r. now destruct o. Qed.

Lemma grab_positional_ok n o fol o' fol' :
  grab_positional n o fol = Ok (o', fol') ->
  exists taken, fol = taken ++ fol' /\ Forall plain_pos taken /\ o' = absorb o taken
    /\ ((0 <= n)%Z -> (Z.of_nat (List.length taken) <= n)%Z).
Proof.
  revert n o; induction fol as [|p fol IH]; intros n o H; cbn [grab_positional] in H.
  - injection H as <- <-. exists []. rewrite absorb_nil. simpl. repeat split; auto.
  - assert (Hstop : Ok (o, p :: fol) = Ok (o', fol') ->
        exists taken, p :: fol = taken ++ fol' /\ Forall plain_pos taken /\ o' = absorb o taken
        /\ ((0 <= n)%Z -> (Z.of_nat (List.length taken) <= n)%Z)).
    { intros [= <- <-]. exists []. rewrite absorb_nil. simpl. repeat split; auto. }
    destruct (Z.eqb_spec n 0); [auto|].
    destruct (is_empty (po_key p)) eqn:Ek; [|auto]. cbn [negb] in H.
    destruct (Z.eqb_spec (po_pos p) INT_MAX); [auto|].
    destruct (po_value p) as [|v [|]] eqn:Ev, (po_orig p) as [|t [|]] eqn:Et; try discriminate.
    destruct (Z.eqb_spec n INT_MIN); [discriminate|].
    apply IH in H. destruct H as (taken & -> & Hp & -> & Hle).
    exists (p :: taken). repeat split.
    + constructor; auto. apply is_empty_true in Ek. repeat split; auto. exists v, t; auto.
    + unfold absorb. simpl. now rewrite Ev, Et, <- !app_assoc.
    + simpl List.length. intros. lia.
Qed.

Lemma merge_nofuel c fuel res : List.length res <= fuel -> merge_pass fuel c res <> NoFuel.
Proof.
  revert res; induction fuel as [|fuel IH]; intros res Hl; destruct res as [|o rest];
    cbn [merge_pass]; try discriminate; simpl in Hl; try lia.
  destruct (is_empty (po_key o)).
  { apply bind_not_nofuel; [apply IH; lia|]. discriminate. }
  apply bind_not_nofuel.
  { pose proof (lookup_nofuel c (po_key o)). destruct (lookup c (po_key o)) as [|e| |]; try discriminate; auto.
    destruct (has_option_name _); [|discriminate].
    apply bind_not_nofuel; [apply at_index_nofuel|discriminate]. }
  intros [d|] _; [|apply bind_not_nofuel; [apply IH; lia|]; discriminate].
  destruct (_ && _); [|apply bind_not_nofuel; [apply IH; lia|]; discriminate].
  apply bind_not_nofuel; [apply grab_positional_nofuel|]. intros [g r] Hg.
  apply grab_positional_ok in Hg. destruct Hg as (tk & -> & _).
  rewrite app_length in Hl.
  apply bind_not_nofuel; [apply IH; simpl; lia|]. discriminate.
Qed.

(** Number of values an option may hold after the second pass. *)
Definition room (c : cmdline) (o : popt) (n : nat) : Prop :=
  n = 0 \/ exists d, lookup c (po_key o) = Ok (Some d)
    /\ (vs_min (od_sem d) < vs_max (od_sem d))%Z
    /\ ((vs_max (od_sem d) - Z.of_nat (List.length (po_value o)) <= INT_MAX)%Z ->
        (Z.of_nat (List.length (po_value o)) + Z.of_nat n <= vs_max (od_sem d))%Z).

(** Relation between the options before and after the second pass. *)
Inductive merged (c : cmdline) : list popt -> list popt -> Prop :=
| merged_nil : merged c [] []
| merged_pos o os rs : po_key o = [] -> merged c os rs -> merged c (o :: os) (o :: rs)
| merged_named o taken os rs :
    po_key o <> [] -> Forall plain_pos taken -> room c o (List.length taken) ->
    (exists xd, lookup c (po_key o) = Ok xd) ->
    merged c os rs ->
    merged c (o :: taken ++ os) (absorb o taken :: rs).

Lemma to_int_small z : (0 <= z <= INT_MAX)%Z -> to_int z = z.
Proof.
  intros H. unfold to_int, INT_MAX in *. rewrite Z.mod_small by lia.
  destruct (Z.leb_spec z 2147483647); lia.
Qed.

Lemma merge_ok c fuel res res' :
  merge_pass fuel c res = Ok res' -> merged c res res'.
Proof.
  revert res res'; induction fuel as [|fuel IH]; intros res res' H; destruct res as [|o rest];
    cbn [merge_pass] in H; try discriminate; try (injection H as <-; constructor).
  assert (Hone : forall r, (exists xd, lookup c (po_key o) = Ok xd) -> po_key o <> [] ->
                  merged c rest r -> merged c (o :: rest) (o :: r)).
  { intros r Hl Hk Hm. pose proof (merged_named c o [] rest r Hk (Forall_nil _) (or_introl eq_refl) Hl Hm) as X.
    now rewrite absorb_nil in X. }
  destruct (is_empty (po_key o)) eqn:Ek.
  { apply is_empty_true in Ek. apply bind_Ok in H. destruct H as (r & H & [= <-]). constructor; auto. }
  apply is_empty_false in Ek. apply bind_Ok in H. destruct H as (xd & Hl & H).
  assert (Hl' : lookup c (po_key o) = Ok xd).
  { destruct (lookup c (po_key o)) as [|e| |]; auto. destruct (has_option_name _); [|discriminate].
    apply bind_Ok in Hl. destruct Hl as (t & _ & Hl). discriminate. }
  destruct xd as [d|].
  2: { apply bind_Ok in H. destruct H as (r & H & [= <-]). apply Hone; eauto. }
  set (n := Z.of_nat (List.length (po_value o))) in *.
  destruct (Z.ltb_spec (vs_min (od_sem d)) (vs_max (od_sem d))) as [H1|H1]; cbn [andb] in H.
  2: { apply bind_Ok in H. destruct H as (r & H & [= <-]). apply Hone; eauto. }
  destruct (Z.ltb_spec n (vs_max (od_sem d))) as [H2|H2].
  2: { apply bind_Ok in H. destruct H as (r & H & [= <-]). apply Hone; eauto. }
  apply bind_Ok in H. destruct H as ((g & left) & Hg & H). cbn [fst snd] in H.
  apply bind_Ok in H. destruct H as (r & H & [= <-]).
  apply grab_positional_ok in Hg. destruct Hg as (taken & -> & Hp & -> & Hle).
  constructor; eauto. right. exists d. repeat split; auto. intros Hm. fold n in Hm |- *.
  rewrite to_int_small in Hle; [|lia]. specialize (Hle ltac:(lia)). lia.
Qed.

(** ** Numbering and naming *)

Lemma number_length k rs : List.length (number_positionals k rs) = List.length rs.
Proof.
  revert k; induction rs as [|o rs IH]; intros k; simpl; auto.
  destruct (is_empty _); simpl; now rewrite IH.
Qed.

Lemma run_ok fuel c args res :
  run fuel c args = Ok res ->
  exists r1 r2 r4, main_loop fuel c args = Ok r1 /\ merged c r1 r2
    /\ match cl_positional c with
       | Some p => name_positionals p 0 (number_positionals 0 r2) = Ok r4
       | None => r4 = number_positionals 0 r2
       end
    /\ res = map (set_case_flag c) r4.
Proof.
  unfold run. intros H. apply bind_Ok in H. destruct H as (r1 & H1 & H).
  apply bind_Ok in H. destruct H as (r2 & H2 & H). apply bind_Ok in H. destruct H as (r4 & H4 & [= <-]).
  exists r1, r2, r4. repeat split; auto.
  - eapply merge_ok; eauto.
  - destruct (cl_positional c); congruence.
Qed.

Lemma name_positionals_nofuel p k rs : name_positionals p k rs <> NoFuel.
Proof.
  revert k; induction rs as [|o rs IH]; intros k; cbn [name_positionals]; [discriminate|].
  destruct (Z.eqb _ _); [apply bind_not_nofuel; [apply IH|discriminate]|].
  destruct (Z.leb _ _); [discriminate|].
  apply bind_not_nofuel.
  { unfold name_for_position. destruct (Z.ltb _ _); [destruct (nth_error _ _)|]; discriminate. }
  intros n _. apply bind_not_nofuel; [apply IH|discriminate].
Qed.

Lemma run_nofuel_lemma c fuel args :
  no_custom c -> List.length args <= fuel -> run fuel c args <> NoFuel.
Proof.
  intros Hc Hl. unfold run.
  apply bind_not_nofuel; [apply main_loop_nofuel; auto|]. intros r1 _.
  apply bind_not_nofuel; [apply merge_nofuel; auto|]. intros r2 _.
  apply bind_not_nofuel; [|discriminate].
  destruct (cl_positional c); [apply name_positionals_nofuel|discriminate].
Qed.

Lemma run_more_lemma c fuel fuel' args :
  no_custom c -> List.length args <= fuel -> List.length args <= fuel' -> run fuel c args = run fuel' c args.
Proof.
  intros Hc H1 H2. unfold run.
  assert (E : main_loop fuel c args = main_loop fuel' c args).
  { transitivity (main_loop (List.length args) c args); [|symmetry];
      apply main_loop_more; auto; apply main_loop_nofuel; auto. }
  now rewrite E.
Qed.

(** ** Tokens *)

Lemma tokens_app a b : tokens_of (a ++ b) = tokens_of a ++ tokens_of b.
Proof. unfold tokens_of. now rewrite map_app, concat_app. Qed.

Lemma merged_tokens c a b : merged c a b -> tokens_of b = tokens_of a.
Proof.
  induction 1; auto.
  - unfold tokens_of in *. simpl. now rewrite IHmerged.
  - change (absorb o taken :: rs) with ([absorb o taken] ++ rs).
    change (o :: taken ++ os) with ([o] ++ (taken ++ os)).
    rewrite !tokens_app, IHmerged, app_assoc. f_equal. unfold tokens_of, absorb. simpl.
    now rewrite !app_nil_r.
Qed.

Lemma number_tokens k rs : tokens_of (number_positionals k rs) = tokens_of rs.
Proof.
  unfold tokens_of. revert k; induction rs as [|o rs IH]; intros k; simpl; auto.
  destruct (is_empty _); simpl; now rewrite IH.
Qed.

Lemma name_tokens p k rs rs' : name_positionals p k rs = Ok rs' -> tokens_of rs' = tokens_of rs.
Proof.
  unfold tokens_of. revert k rs'; induction rs as [|o rs IH]; intros k rs' H; cbn [name_positionals] in H.
  - injection H as <-. auto.
  - destruct (Z.eqb _ _).
    + apply bind_Ok in H. destruct H as (r & H & [= <-]). simpl. now rewrite (IH _ _ H).
    + destruct (Z.leb _ _); [discriminate|]. apply bind_Ok in H. destruct H as (n & _ & H).
      apply bind_Ok in H. destruct H as (r & H & [= <-]). simpl. now rewrite (IH _ _ H).
Qed.

Lemma case_tokens c rs : tokens_of (map (set_case_flag c) rs) = tokens_of rs.
Proof. unfold tokens_of. now rewrite map_map. Qed.

Lemma passes_tokens fuel c args res :
  run fuel c args = Ok res ->
  exists r1, main_loop fuel c args = Ok r1 /\ tokens_of res = tokens_of r1.
Proof.
  intros H. apply run_ok in H. destruct H as (r1 & r2 & r4 & H1 & H2 & H4 & ->).
  exists r1. split; auto. rewrite case_tokens, <- (merged_tokens _ _ _ H2).
  destruct (cl_positional c).
  - rewrite (name_tokens _ _ _ _ H4). apply number_tokens.
  - subst r4. apply number_tokens.
Qed.

(** ** Conservation of tokens *)

Lemma reads_tokens c tok os :
  has (cl_style c) allow_long_disguise = false -> cl_additional c = None ->
  reads c tok os -> tokens_of os = [tok].
Proof.
  intros Hd Ha H. destruct H; try congruence; try reflexivity.
  rewrite tokens_app. unfold tokens_of at 2. simpl.
  assert (E : tokens_of (map (fun a => raw [c_dash; a] [] []) flags) = []).
  { unfold tokens_of. rewrite map_map. simpl. clear. induction flags; auto. }
  now rewrite E.
Qed.

Lemma finish_option_tokens c ps o args o' args' :
  finish_option c ps o args = Ok (o', args') -> po_orig o' ++ args' = po_orig o ++ args.
Proof.
  intros H. apply finish_option_ok in H.
  destruct H as [(_ & -> & ->)|[(_ & _ & _ & -> & ->)|(_ & d & ts & _ & -> & -> & _)]]; auto.
  unfold take_tokens, with_key. simpl. now rewrite <- app_assoc.
Qed.

Lemma finish_all_tokens c ps os args opts args' :
  finish_all c ps os args = Ok (opts, args') -> tokens_of opts ++ args' = tokens_of os ++ args.
Proof.
  destruct (rev os) as [|o os'] eqn:Er.
  - apply (f_equal (@rev popt)) in Er. rewrite rev_involutive in Er. subst os.
    cbn [finish_all]. intros [= <- <-]. auto.
  - apply (f_equal (@rev popt)) in Er. rewrite rev_involutive in Er. subst os. simpl.
    intros H. apply finish_all_snoc_ok in H. destruct H as (fs & f & -> & Hf & Hl).
    rewrite !tokens_app. apply finish_option_tokens in Hl.
    assert (E : tokens_of fs = tokens_of (rev os')).
    { clear Hl. induction Hf as [|x y xs ys Hxy _ IH]; auto. unfold tokens_of in *. simpl.
      apply finish_option_tokens in Hxy. rewrite !app_nil_r in Hxy. now rewrite Hxy, IH. }
    rewrite E, <- !app_assoc. f_equal. unfold tokens_of. simpl. now rewrite !app_nil_r.
Qed.

Lemma tokens_term ts : tokens_of (map term_opt ts) = ts.
Proof. unfold tokens_of. rewrite map_map. simpl. induction ts; simpl; congruence. Qed.

Lemma steps_tokens c args opts :
  has (cl_style c) allow_long_disguise = false -> cl_additional c = None ->
  steps c args opts ->
  tokens_of opts = args
  \/ exists pre post, args = pre ++ dashdash :: post /\ tokens_of opts = pre ++ post.
Proof.
  intros Hd Ha. induction 1 as [|tok rest opts args' more Hs _ IH]; [now left|].
  rewrite tokens_app. destruct Hs as [(os & Hr & Hf)|[(-> & -> & ->)|(-> & ->)]].
  - apply finish_all_tokens in Hf. rewrite (reads_tokens _ _ _ Hd Ha Hr) in Hf.
    destruct IH as [->|(pre & post & -> & ->)]; [now left|].
    right. exists (tokens_of opts ++ pre), post. rewrite <- !app_assoc. split; auto.
  - right. exists [], rest. split; auto. rewrite tokens_term.
    destruct IH as [->|(pre & post & E & _)]; [apply app_nil_r|]. destruct pre; discriminate.
  - destruct IH as [->|(pre & post & -> & ->)]; [now left|].
    right. exists (tok :: pre), post. auto.
Qed.

Lemma conservation_lemma c args res :
  plain c -> has (cl_style c) allow_long_disguise = false ->
  parse c args = Ok res ->
  tokens_of res = args
  \/ exists pre post, args = pre ++ dashdash :: post /\ tokens_of res = pre ++ post.
Proof.
  intros [Hc Ha] Hd H. apply passes_tokens in H. destruct H as (r1 & H1 & ->).
  apply main_loop_steps in H1; auto. apply steps_tokens with c; auto.
Qed.

(** ** Sequential composition of the main loop *)

(** A style parser that decides on the first token alone. *)
Definition head_local (p : style_parser) : Prop :=
  forall tok, exists h : outcome (option (list popt)), forall rest,
    p (tok :: rest) = let* o := h in
                      Ok (match o with None => ([], tok :: rest) | Some os => (os, rest) end).

Lemma parse_long_local c : head_local (parse_long_option c).
Proof.
  intros tok.
  destruct (parse_long_cases c tok [])
    as [[E _]|[(n & -> & Hn & Hw & E)|[(n & v & -> & Hn & Hv & E)|(n & -> & Hn & E)]]].
  - exists (Ok None). intros rest. unfold parse_long_option in *. cbn [at_index nth_error bind] in *.
    destruct tok as [|c1 [|c2 [|c3 s]]]; try reflexivity.
    destruct (_ && _); [|reflexivity].
    destruct (find_char _ _); [destruct (is_empty _)|]; cbn [bind erase_front] in *; congruence.
  - exists (Ok (Some [raw n [] [c_dash :: c_dash :: n]])). intros rest.
    destruct (parse_long_cases c (c_dash :: c_dash :: n) rest)
      as [[_ Hx]|[(n' & En & _ & _ & E')|[(n' & v & En & Hn' & _)|(n' & En & Hn' & _)]]].
    + exfalso. apply Hn. auto.
    + injection En as <-. exact E'.
    + exfalso. injection En as ->. apply Hw. apply in_or_app. right. now left.
    + exfalso. injection En as ->. apply Hw. apply in_or_app. right. now left.
  - exists (Ok (Some [raw n [v] [c_dash :: c_dash :: n ++ c_eq :: v]])). intros rest.
    unfold parse_long_option in *. cbn [at_index nth_error bind] in *.
    destruct (n ++ c_eq :: v) as [|c3 s]; try discriminate. cbn [andb] in *.
    destruct (_ && _); [|discriminate].
    destruct (find_char _ _); [destruct (is_empty _)|]; cbn [bind erase_front] in *; congruence.
  - exists (Throw (mk_cmdline_syntax empty_adjacent_parameter n n (cl_prefix c))). intros rest.
    unfold parse_long_option in *. cbn [at_index nth_error bind] in *.
    destruct (n ++ [c_eq]) as [|c3 s]; try discriminate.
    destruct (_ && _); [|discriminate].
    destruct (find_char _ _); [destruct (is_empty _)|]; cbn [bind erase_front] in *; congruence.
Qed.

Lemma style_parser_local c p :
  no_custom c -> In p (style_parsers c) -> p = parse_terminator \/ head_local p.
Proof.
  unfold no_custom, style_parsers. intros Hc Hin. rewrite Hc in Hin. cbn [app] in Hin.
  rewrite !in_app_iff in Hin.
  destruct Hin as [Hin|[Hin|[Hin|[Hin|[Hin|[Hin|[]]]]]]].
  - right. destruct (cl_additional c) as [f|]; [|destruct Hin]. destruct Hin as [<-|[]].
    intros tok. unfold handle_additional_parser. cbn [at_index nth_error bind].
    destruct (f tok) as [a b]. destruct (is_empty a).
    + now exists (Ok None).
    + now eexists (Ok (Some _)).
  - right. destruct (has _ _); [|destruct Hin]. destruct Hin as [<-|[]]. apply parse_long_local.
  - right. destruct (has _ _); [|destruct Hin]. destruct Hin as [<-|[]].
    intros tok. unfold parse_disguised_long_option. cbn [at_index nth_error bind].
    destruct tok as [|c1 [|c2 s]]; try (now exists (Ok None)).
    destruct (_ || _) eqn:Ec; [|now exists (Ok None)].
    assert (Hc1 : (if char_eqb c1 c_slash then c_dash else c1) = c_dash).
    { apply orb_true_iff in Ec. destruct Ec as [Ec|Ec]; apply andb_true_iff in Ec; destruct Ec as [E1 E2].
      - apply char_eqb_eq in E1. subst c1. reflexivity.
      - rewrite E2. reflexivity. }
    rewrite Hc1. set (x := with_context _ _ _ (lookup c _)). destruct x as [[d|]|e|u|].
    + cbn [bind erase_front]. set (tok' := _ :: _ :: _).
      destruct (parse_long_local c tok') as [h Hh].
      assert (Hn : h <> Ok None).
      { intros ->. specialize (Hh []). simpl in Hh. unfold parse_long_option in Hh.
        unfold tok' in Hh. cbn [at_index nth_error bind tl] in Hh.
        change (char_eqb c_dash c_dash && char_eqb c_dash c_dash) with true in Hh. cbn iota in Hh.
        destruct (find_char _ _); [destruct (is_empty _)|]; cbn [bind erase_front] in Hh; congruence. }
      exists (with_context tok' tok' (cl_prefix c) h). intros rest. rewrite Hh.
      destruct h as [[os|]| | |]; try reflexivity. congruence.
    + now exists (Ok None).
    + now exists (Throw e).
    + now exists (Undef u).
    + now exists NoFuel.
  - right. destruct (_ && _); [|destruct Hin]. destruct Hin as [<-|[]].
    intros tok. unfold parse_short_option. cbn [at_index nth_error bind].
    destruct tok as [|c1 [|c2 s]]; try (now exists (Ok None)). destruct (_ && _); [|now exists (Ok None)].
    destruct (short_loop _ _ _ _ _) as [r|e|u|].
    + now exists (Ok (Some r)).
    + now exists (Throw e).
    + now exists (Undef u).
    + now exists NoFuel.
  - right. destruct (_ && _); [|destruct Hin]. destruct Hin as [<-|[]].
    intros tok. unfold parse_dos_option. cbn [at_index nth_error bind].
    destruct tok as [|c1 [|c2 s]]; try (now exists (Ok None)).
    destruct (char_eqb _ _); [now eexists (Ok (Some _))|now exists (Ok None)].
  - left. auto.
Qed.

Lemma grab_tokens_app c ps key t n opt other suf :
  (0 <= n <= Z.of_nat (List.length other))%Z ->
  grab_tokens c ps key t n opt (other ++ suf)
  = let* r := grab_tokens c ps key t n opt other in Ok (fst r, snd r ++ suf).
Proof.
  revert t n opt; induction other as [|tok rest IH]; intros t n opt Hn.
  - simpl in Hn. assert (n = 0%Z) by lia. subst n. simpl. destruct suf; reflexivity.
  - cbn [app grab_tokens]. destruct (Z.eqb_spec n 0) as [->|Hne]; [reflexivity|].
    destruct (with_context key t (cl_prefix c) (looks_like_option ps [tok])) as [f| | |]; try reflexivity.
    cbn [bind]. match goal with |- context [bind ?x _] => destruct x as [t'| | |]; try reflexivity end.
    cbn [bind]. apply IH. simpl List.length in Hn. lia.
Qed.

Lemma finish_option_app c ps o other suf o' other' :
  finish_option c ps o other = Ok (o', other') ->
  finish_option c ps o (other ++ suf) = Ok (o', other' ++ suf).
Proof.
  unfold finish_option. destruct (is_empty (po_key o)); [intros [= <- <-]; auto|].
  intros H. apply bind_Ok in H. destruct H as (xd & -> & H). cbn [bind].
  destruct xd as [d|].
  - set (n := Z.of_nat (List.length (po_value o))) in *.
    destruct (Z.leb_spec (vs_min (od_sem d)) (n + Z.of_nat (List.length other))) as [H1|H1]; [|discriminate].
    destruct (Z.leb_spec (vs_min (od_sem d)) (n + Z.of_nat (List.length (other ++ suf)))) as [H2|H2].
    2: { rewrite app_length in H2. lia. }
    destruct (_ && _); [discriminate|].
    rewrite grab_tokens_app.
    + now rewrite H.
    + destruct (Z.leb_spec n (vs_min (od_sem d))); lia.
  - destruct (cl_allow_unregistered c); [|discriminate]. injection H as <- <-. auto.
Qed.

Lemma finish_all_app c ps os args suf opts args' :
  finish_all c ps os args = Ok (opts, args') ->
  finish_all c ps os (args ++ suf) = Ok (opts, args' ++ suf).
Proof.
  revert opts args'; induction os as [|o os IH]; intros opts args' H; cbn [finish_all] in *.
  - injection H as <- <-. auto.
  - destruct os as [|o2 os].
    + apply bind_Ok in H. destruct H as ((f & a) & H & [= <- <-]).
      rewrite (finish_option_app _ _ _ _ _ _ _ H). reflexivity.
    + apply bind_Ok in H. destruct H as ((f & a) & H1 & H). rewrite H1. cbn [bind fst].
      apply bind_Ok in H. destruct H as ((fs & a2) & H2 & [= <- <-]).
      rewrite (IH _ _ H2). reflexivity.
Qed.

Lemma try_parsers_app c ps todo tok rest suf opts args' ok :
  no_custom c -> tok <> dashdash -> (forall p, In p todo -> In p (style_parsers c)) ->
  try_parsers c ps todo (tok :: rest) = Ok (opts, args', ok) ->
  try_parsers c ps todo (tok :: rest ++ suf) = Ok (opts, args' ++ suf, ok).
Proof.
  intros Hc Ht. revert opts args' ok; induction todo as [|p todo IH]; intros opts args' ok Hin H;
    cbn [try_parsers] in H |- *.
  - injection H as <- <- <-. reflexivity.
  - apply bind_Ok in H. destruct H as ((next & args1) & Hp & H).
    apply bind_Ok in H. destruct H as ((fin & args2) & Hf & H).
    assert (Hcase : (p (tok :: rest ++ suf) = Ok ([], tok :: rest ++ suf) /\ next = [] /\ args1 = tok :: rest)
                    \/ (p (tok :: rest ++ suf) = Ok (next, rest ++ suf) /\ args1 = rest)).
    { destruct (style_parser_local c p Hc (Hin p (or_introl eq_refl))) as [->|Hl].
      - unfold parse_terminator in Hp |- *. cbn [at_index nth_error bind] in Hp |- *.
        destruct (str_eqb_spec tok $"--") as [E|E]; [exfalso; auto|]. injection Hp as <- <-. auto.
      - destruct (Hl tok) as [h Hh]. rewrite Hh in Hp |- *.
        apply bind_Ok in Hp. destruct Hp as (o & -> & Hp). cbn [bind].
        destruct o as [os|]; injection Hp as <- <-; auto. }
    destruct Hcase as [(-> & -> & ->)|(-> & ->)]; cbn [bind].
    + cbn [finish_all] in Hf |- *. injection Hf as <- <-. cbn [bind]. rewrite !Nat.eqb_refl in *.
      apply bind_Ok in H. destruct H as (((f & a) & k) & H1 & [= <- <- <-]).
      rewrite (IH _ _ _ (fun q Hq => Hin q (or_intror Hq)) H1). reflexivity.
    + rewrite (finish_all_app _ _ _ _ _ _ _ Hf). cbn [bind].
      change (tok :: rest ++ suf) with ((tok :: rest) ++ suf). rewrite !app_length.
      destruct (Nat.eqb_spec (List.length args2) (List.length (tok :: rest))) as [E|E].
      * rewrite <- E, Nat.eqb_refl.
        (** same length: impossible to be reached for the remaining parsers unless unchanged *)
        exfalso.
        assert (Hle : List.length args2 <= List.length rest).
        { destruct (rev next) as [|o os'] eqn:Er.
          - apply (f_equal (@rev popt)) in Er. rewrite rev_involutive in Er. simpl in Er. subst next.
            cbn [finish_all] in Hf. injection Hf as <- <-. auto.
          - apply (f_equal (@rev popt)) in Er. rewrite rev_involutive in Er. simpl in Er. subst next.
            apply finish_all_snoc_ok in Hf. destruct Hf as (fs & f & _ & _ & Hf).
            eapply finish_option_length; eauto. }
        simpl in E. lia.
      * destruct (Nat.eqb_spec (List.length args2 + List.length suf) (List.length (tok :: rest) + List.length suf)); [lia|].
        injection H as <- <- <-. reflexivity.
Qed.

Lemma main_step_app c tok rest suf opts args' :
  no_custom c -> tok <> dashdash ->
  main_step c (tok :: rest) = Ok (opts, args') ->
  main_step c (tok :: rest ++ suf) = Ok (opts, args' ++ suf).
Proof.
  intros Hc Ht. unfold main_step. intros H. apply bind_Ok in H. destruct H as (((o & a) & ok) & H1 & H).
  rewrite (try_parsers_app c _ _ tok rest suf o a ok Hc Ht (fun p Hp => Hp) H1). cbn [bind].
  destruct ok; [injection H as <- <-; reflexivity|].
  destruct a as [|a0 a]; [discriminate|]. cbn [at_index nth_error bind erase_front app] in H |- *.
  injection H as <- <-. reflexivity.
Qed.

Lemma suffix_In c tok rest opts args' x :
  no_custom c -> main_step c (tok :: rest) = Ok (opts, args') -> In x args' -> In x rest.
Proof.
  intros Hc H Hin. apply main_step_ok in H; auto. destruct H as [(os & Hr & Hf)|[(_ & -> & _)|(_ & ->)]]; auto.
  - destruct (reads_last _ _ _ Hr) as (fl & o & -> & _).
    apply finish_all_snoc_ok in Hf. destruct Hf as (fs & f & _ & _ & Hf).
    apply finish_option_ok in Hf.
    destruct Hf as [(_ & _ & <-)|[(_ & _ & _ & _ & <-)|(_ & d & ts & _ & -> & _)]]; auto.
    apply in_or_app. auto.
  - destruct Hin.
Qed.

Lemma main_loop_app c f g pre suf r1 :
  no_custom c -> ~ In dashdash pre ->
  main_loop f c pre = Ok r1 -> main_loop g c suf <> NoFuel ->
  main_loop (f + g) c (pre ++ suf) = let* r2 := main_loop g c suf in Ok (r1 ++ r2).
Proof.
  intros Hc. revert pre r1; induction f as [|f IH]; intros pre r1 Hn H Hs.
  - destruct pre; [|discriminate]. injection H as <-. simpl. destruct (main_loop g c suf); reflexivity.
  - destruct pre as [|tok rest].
    + injection H as <-. simpl app. rewrite (main_loop_more c g); auto; [|lia].
      destruct (main_loop g c suf); reflexivity.
    + cbn [main_loop] in H. apply bind_Ok in H. destruct H as ((o & a) & H1 & H).
      apply bind_Ok in H. destruct H as (more & H2 & [= <-]). cbn [fst snd] in *.
      cbn [Nat.add app main_loop].
      rewrite (main_step_app c tok rest suf o a Hc) by (auto; intros ->; apply Hn; now left).
      cbn [bind fst snd]. rewrite (IH a more); auto.
      * destruct (main_loop g c suf); try reflexivity. cbn [bind]. now rewrite app_assoc.
      * intros Hin. apply Hn. right. eapply suffix_In; eauto.
Qed.

(** ** Composition of the second pass *)

Lemma merge_more c f g rs :
  merge_pass f c rs <> NoFuel -> f <= g -> merge_pass g c rs = merge_pass f c rs.
Proof.
  revert g rs; induction f as [|f IH]; intros g rs H Hle.
  - destruct rs; [destruct g; reflexivity|]. simpl in H. congruence.
  - destruct g as [|g]; [lia|]. destruct rs as [|o rest]; [reflexivity|]. cbn [merge_pass] in H |- *.
    assert (Hr : forall r (k : list popt -> outcome (list popt)),
       bind (merge_pass f c r) k <> NoFuel -> bind (merge_pass g c r) k = bind (merge_pass f c r) k).
    { intros r k Hk. rewrite IH; auto; [|lia]. intros E. rewrite E in Hk. simpl in Hk. congruence. }
    destruct (is_empty (po_key o)); [apply Hr; auto|].
    match goal with |- bind ?x _ = _ => destruct x as [[d|]| | |]; cbn [bind] in H |- *; auto end.
    destruct (_ && _); [|apply Hr; auto].
    destruct (grab_positional _ _ _) as [[gr lf]| | |]; cbn [bind fst snd] in H |- *; auto.
Qed.

(** The head of [rs] is not a positional option that could be taken. *)
Definition barrier (rs : list popt) : Prop :=
  match rs with [] => True | o :: _ => po_key o <> [] \/ po_pos o = INT_MAX end.

Lemma grab_positional_app n o fol suf o' fol' :
  barrier suf -> grab_positional n o fol = Ok (o', fol') ->
  grab_positional n o (fol ++ suf) = Ok (o', fol' ++ suf).
Proof.
  intros Hb. revert n o; induction fol as [|p fol IH]; intros n o H; cbn [grab_positional app] in *.
  - injection H as <- <-. simpl. destruct suf as [|s suf]; [reflexivity|]. cbn [grab_positional].
    destruct (Z.eqb n 0); [reflexivity|]. destruct (is_empty (po_key s)) eqn:Ek; [|reflexivity].
    apply is_empty_true in Ek. cbn [negb]. simpl in Hb. destruct Hb as [Hb|Hb]; [congruence|].
    rewrite Hb, Z.eqb_refl. reflexivity.
  - destruct (Z.eqb n 0); [injection H as <- <-; reflexivity|].
    destruct (negb _); [injection H as <- <-; reflexivity|].
    destruct (Z.eqb (po_pos p) _); [injection H as <- <-; reflexivity|].
    destruct (po_value p) as [|v [|]], (po_orig p) as [|t [|]]; try discriminate.
    destruct (Z.eqb n INT_MIN); [discriminate|]. auto.
Qed.

Lemma merge_app c f g r1 r2 m1 :
  barrier r2 -> merge_pass f c r1 = Ok m1 -> merge_pass g c r2 <> NoFuel ->
  merge_pass (f + g) c (r1 ++ r2) = let* m2 := merge_pass g c r2 in Ok (m1 ++ m2).
Proof.
  intros Hb. revert r1 m1; induction f as [|f IH]; intros r1 m1 H Hs.
  - destruct r1; [|discriminate]. injection H as <-. simpl. destruct (merge_pass g c r2); reflexivity.
  - destruct r1 as [|o rest].
    + injection H as <-. simpl app. rewrite (merge_more c g); auto; [|lia].
      destruct (merge_pass g c r2); reflexivity.
    + cbn [Nat.add app merge_pass] in H |- *.
      assert (Hone : forall x lf, (let* r := merge_pass f c lf in Ok (x :: r)) = Ok m1 ->
                (let* r := merge_pass (f + g) c (lf ++ r2) in Ok (x :: r))
                = let* m2 := merge_pass g c r2 in Ok (m1 ++ m2)).
      { intros x lf E. apply bind_Ok in E. destruct E as (r & E & [= <-]).
        rewrite (IH _ _ E Hs). destruct (merge_pass g c r2); reflexivity. }
      destruct (is_empty (po_key o)); [auto|].
      apply bind_Ok in H. destruct H as (xd & -> & H). cbn [bind].
      destruct xd as [d|]; [|auto]. destruct (_ && _); [|auto].
      apply bind_Ok in H. destruct H as ((gr & lf) & Hg & H).
      rewrite (grab_positional_app _ _ _ _ _ _ Hb Hg). cbn [bind fst snd] in H |- *. auto.
Qed.

Lemma merge_ok_full c rs m f :
  merge_pass f c rs = Ok m -> merge_pass (List.length rs) c rs = Ok m.
Proof.
  intros H. destruct (le_ge_dec f (List.length rs)).
  - rewrite <- H. apply merge_more; auto. congruence.
  - rewrite <- H. symmetry. apply merge_more; auto. apply merge_nofuel. auto.
Qed.

Lemma merge_app_full c r1 r2 m1 :
  barrier r2 -> merge_pass (List.length r1) c r1 = Ok m1 ->
  merge_pass (List.length (r1 ++ r2)) c (r1 ++ r2)
  = let* m2 := merge_pass (List.length r2) c r2 in Ok (m1 ++ m2).
Proof.
  intros Hb H. rewrite app_length. apply merge_app; auto. apply merge_nofuel; auto.
Qed.

(** Options without any positional option to take: the second pass only checks the keys. *)
Lemma merge_term c ts :
  merge_pass (List.length (map term_opt ts)) c (map term_opt ts) = Ok (map term_opt ts).
Proof. induction ts as [|t ts IH]; auto. cbn [map List.length merge_pass is_empty po_key term_opt]. now rewrite IH. Qed.

(** ** Composition of numbering and naming *)

Definition count_empty (rs : list popt) : nat := List.length (filter (fun o => is_empty (po_key o)) rs).

Lemma number_app k a b :
  number_positionals k (a ++ b)
  = number_positionals k a ++ number_positionals (k + Z.of_nat (count_empty a)) b.
Proof.
  revert k; induction a as [|o a IH]; intros k; cbn [app number_positionals].
  - now rewrite Z.add_0_r.
  - unfold count_empty in *. cbn [filter]. destruct (is_empty (po_key o)); cbn [app List.length];
      rewrite IH; f_equal; f_equal; f_equal; lia.
Qed.
