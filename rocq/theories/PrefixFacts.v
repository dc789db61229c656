(** Complete options at the front of a command line do not influence the rest. *)

From Coq Require Import List Ascii String NArith ZArith Bool Arith Lia.
From Verif Require Import Base Errors Spec BaseFacts Values OptDesc SpecLookup LookupFacts
  Positional Cmdline SpecCmdline CmdlineFacts RunFacts ParseFacts ValueFacts ReadFacts.
Import ListNotations.

Lemma prefix_step c tok rest o d :
  main_step c (tok :: rest) = Ok ([o], rest) -> po_pos o = (-1)%Z -> po_key o <> [] ->
  lookup c (po_key o) = Ok (Some d) -> (vs_max (od_sem d) <= Z.of_nat (List.length (po_value o)))%Z ->
  parse c (tok :: rest) = let* r := parse c rest in Ok (set_case_flag c o :: r).
Proof.
  intros Hm Hp Hk Hl Hmax. unfold parse, run. cbn [List.length main_loop]. rewrite Hm. cbn [bind fst snd].
  destruct (main_loop (List.length rest) c rest) as [more| | |]; auto.
  cbn [bind app List.length merge_pass]. apply is_empty_false in Hk. rewrite Hk, Hl. cbn [bind].
  destruct (Z.ltb_spec (Z.of_nat (List.length (po_value o))) (vs_max (od_sem d))); [lia|].
  rewrite andb_false_r.
  destruct (merge_pass (List.length more) c more) as [r2| | |]; auto.
  cbn [bind number_positionals]. rewrite Hk.
  destruct (cl_positional c) as [p|]; auto.
  cbn [name_positionals]. rewrite Hp. cbn [Z.eqb Pos.eqb].
  destruct (name_positionals p 0 (number_positionals 0 r2)); auto.
Qed.

Lemma complete_step c tok key vs :
  complete c tok key vs ->
  exists o, (forall rest, parse c (tok :: rest) = (let* r := parse c rest in Ok (o :: r)))
    /\ po_key o = key /\ po_value o = vs /\ po_pos o = (-1)%Z /\ po_unreg o = false
    /\ po_orig o = match cl_additional c with None => [tok] | Some _ => [] end.
Proof.
  intros H. destruct H as [tok typed v key d Hp Hs Hl Hk Hkn Hlk Hmin Hmax
    |tok typed key d Hp Hb Hl Hk Hkn Hlk Hmin Hmax|tok f key v d H1 H2 Hm Hlk Hmax].
  - exists (set_case_flag c (raw key [v] [tok])). split.
    + intros rest. eapply prefix_step; try reflexivity; auto; [|exact Hlk|cbn; lia].
      apply spelled_step with (typed := typed); auto.
      exists d. repeat (split; auto); [lia|]. eexists; eassumption.
    + destruct Hp as (_ & ->). repeat split.
  - exists (set_case_flag c (raw key [] [tok])). split.
    + intros rest. eapply prefix_step; try reflexivity; auto; [|exact Hlk|cbn; lia].
      destruct (bare_step c tok typed d rest Hp Hb Hl) as (before & p & after & E & Hbef & Hread).
      pose proof (bare_nonempty _ _ _ Hb) as Hne.
      rewrite (main_step_read c before p after tok rest _ E Hbef Hread).
      rewrite (finish_exact c _ typed [] [tok] rest d); auto.
      * cbn [bind fst snd]. apply is_key_unique in Hk. now subst key.
      * cbn. lia.
    + destruct Hp as (_ & ->). repeat split.
  - exists (set_case_flag c (raw key (opt_value v) [])). split.
    + intros rest. destruct Hm as (typed & d' & Hf & Hn & Hl & Hk & Hkn & _ & Hm1 & Hm2). cbn [fst snd] in *.
      eapply prefix_step; try reflexivity; auto; [|exact Hlk|].
      * rewrite (additional_step c f tok typed v) by auto.
        rewrite (finish_exact c _ typed (opt_value v) [] rest d'); auto.
        -- cbn [bind fst snd]. apply is_key_unique in Hk. now subst key.
        -- unfold opt_value. destruct v; cbn; [auto|]. apply Hm2. discriminate.
        -- unfold opt_value. destruct v; cbn; [auto|]. intros E. destruct Hm2 as [_ Hm2]; [discriminate|].
           contradiction.
      * unfold opt_value, raw. destruct v; cbn in *; lia.
    + rewrite H2. unfold opt_value. repeat split.
Qed.

Lemma prefix_lemma c toks keys vals :
  Forall2 (fun tok kv => complete c tok (fst kv) (snd kv)) toks (combine keys vals) ->
  List.length keys = List.length vals ->
  exists os, (forall rest, parse c (toks ++ rest) = (let* r := parse c rest in Ok (os ++ r)))
    /\ named_options keys vals
         (match cl_additional c with None => map (fun t => [t]) toks | Some _ => map (fun _ => []) toks end) os.
Proof.
  revert keys vals. induction toks as [|tok toks IH]; intros keys vals H Hlen.
  - inversion H as [E|]. destruct keys, vals; try discriminate.
    exists []. split.
    + intros rest. cbn. now destruct (parse c rest).
    + destruct (cl_additional c); repeat split; constructor.
  - destruct keys as [|key keys], vals as [|vs vals]; try discriminate; inversion H as [|? ? ? ? Hc Ht]; subst.
    destruct (IH keys vals Ht) as (os & Hos & Hn); [now injection Hlen|].
    destruct (complete_step c tok key vs Hc) as (o & Ho & E1 & E2 & E3 & E4 & E5).
    exists (o :: os). split.
    + intros rest. cbn [app]. rewrite Ho, Hos. now destruct (parse c rest).
    + destruct Hn as (N1 & N2 & N3 & N4). unfold named_options. cbn [map].
      rewrite E1, E2, E5, N1, N2, N3. repeat split.
      * now destruct (cl_additional c).
      * constructor; auto.
Qed.
