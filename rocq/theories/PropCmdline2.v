(** C08, C17-C27, C45: keys, soundness, positional options, values, other parsers. *)

From Coq Require Import List Ascii String NArith ZArith Bool Arith Lia.
From Verif Require Import Base Errors Spec BaseFacts Values OptDesc SpecLookup LookupFacts
  Positional Cmdline Parsers SpecCmdline CmdlineFacts RunFacts ParseFacts StickyFacts
  CongruenceFacts SoundFacts PositionalFacts ValueFacts ReadFacts SafeFacts FoundFacts PrefixFacts Samples.
Import ListNotations.

Lemma sample_named : Forall has_name sample.
Proof. repeat constructor; cbn; discriminate. Qed.
Lemma sample_sensible : Forall sensible sample.
Proof. repeat constructor; cbn; unfold UINT_MAX; lia. Qed.
Lemma sample_sensitive : case_sensitive (sample_cl default_style).
Proof. split; reflexivity. Qed.

(** C08. The key of a registered option in a parse result is determined by the option a
    token named: first long name, typed spelling for a wildcard, or short name. *)
Theorem C08_canonical_key : forall c args res o,
  cl_style_parser c = None -> Forall has_name (cl_desc c) -> Forall sensible (cl_desc c) ->
  case_fine c -> (Z.of_nat (List.length args) <= INT_MAX)%Z -> parse c args = Ok res ->
  In o res -> po_pos o = (-1)%Z -> po_unreg o = false ->
  exists tok typed d, In tok args /\ names c tok typed /\ lookup c typed = Ok (Some d)
    /\ is_key d typed (po_key o) /\ (forall k, is_key d typed k -> k = po_key o).
Proof.
  intros c args res o H1 H2 H3 H4 H5 H6 Ho Hp Hu.
  pose proof (sound_lemma c args res H1 H2 H3 H4 H5 H6) as Hs. rewrite Forall_forall in Hs.
  destruct (Hs o Ho) as [(_ & _ & tok & typed & d & Hi & Hn & Hl & Hk & _)|[(_ & _ & Hu' & _)|(Hp' & _)]];
    [|congruence|lia].
  exists tok, typed, d. repeat split; auto. intros k Hk'. apply is_key_unique in Hk, Hk'. congruence.
Qed.
Print Assumptions C08_canonical_key.

(** C08. Which spelling of an option is used does not matter, unless it is a wildcard. *)
Theorem C08_spelling_irrelevant : forall c tok1 typed1 tok2 typed2 d v key rest r,
  plain c -> spelled c tok1 typed1 v -> spelled c tok2 typed2 v ->
  lookup c typed1 = Ok (Some d) -> lookup c typed2 = Ok (Some d) -> plain_key d ->
  takes_one c typed1 key -> parse c (tok1 :: rest) = Ok r ->
  exists r', parse c (tok2 :: rest) = Ok r' /\ Forall2 same_option r r'.
Proof.
  intros c tok1 typed1 tok2 typed2 d v key rest r Hp S1 S2 L1 L2 Hk T1.
  pose proof (spelled_step c tok1 typed1 v key rest Hp S1 T1) as M1.
  assert (T2 : takes_one c typed2 key).
  { destruct T1 as (d' & L & Hmin & Hmax & Hkey & Hne & Hu). rewrite L1 in L. injection L as <-.
    exists d. repeat (split; auto). unfold plain_key in Hk.
    destruct Hkey as [(f & q & E & Hs & ->)|[(f & q & E & Hs & _)|(E & ->)]].
    - left. eauto.
    - rewrite E in Hk. contradiction.
    - right. right. auto. }
  pose proof (spelled_step c tok2 typed2 v key rest Hp S2 T2) as M2.
  apply (one_step_same c [tok1] [tok2] (raw key [v] [tok1]) (raw key [v] [tok2]) rest);
    auto; try discriminate; [repeat split|]. cbn. destruct T1 as (_ & _ & _ & _ & _ & Hne & _). exact Hne.
Qed.
Print Assumptions C08_spelling_irrelevant.

Example C08_ex :
  exists r1 r2 r3, parse (sample_cl default_style) [$"--out=f"; $"x"] = Ok r1
    /\ parse (sample_cl default_style) [$"-of"; $"x"] = Ok r2
    /\ parse (sample_cl default_style) [$"--log.x=f"] = Ok r3
    /\ map po_key r1 = [$"output"; []] /\ map po_key r2 = map po_key r1 /\ map po_key r3 = [$"log.x"]
    /\ plain_key o_output /\ ~ plain_key o_log
    /\ lookup (sample_cl default_style) $"out" = Ok (Some o_output)
    /\ lookup (sample_cl default_style) $"-o" = Ok (Some o_output)
    /\ spelled (sample_cl default_style) $"--out=f" $"out" $"f"
    /\ takes_one (sample_cl default_style) $"out" $"output".
Proof.
  do 3 eexists. repeat (split; [reflexivity|]). split; [|split].
  - cbn. intuition discriminate.
  - cbn. intuition.
  - split; [reflexivity|]. split; [reflexivity|]. split.
    + apply (sp_long _ $"out" $"f"); try reflexivity; try discriminate.
      unfold without. cbn. intuition discriminate.
    + exists o_output. repeat split; try reflexivity; try (cbn; discriminate).
      * left. exists $"output", []. repeat split. cbn. intuition discriminate.
      * eexists. reflexivity.
Qed.

(** C17. Each registered option carries an admissible number of values. *)
Theorem C17_token_counts : forall c args res o,
  cl_style_parser c = None -> Forall has_name (cl_desc c) -> Forall sensible (cl_desc c) ->
  case_fine c -> (Z.of_nat (List.length args) <= INT_MAX)%Z -> parse c args = Ok res ->
  In o res -> po_pos o = (-1)%Z -> po_unreg o = false ->
  exists d, lookup c (po_key o) = Ok (Some d)
    /\ (vs_min (od_sem d) <= Z.of_nat (List.length (po_value o))
        <= Z.max (vs_min (od_sem d)) (vs_max (od_sem d)))%Z.
Proof.
  intros c args res o H1 H2 H3 H4 H5 H6 Ho Hp Hu.
  pose proof (sound_lemma c args res H1 H2 H3 H4 H5 H6) as Hs. rewrite Forall_forall in Hs.
  destruct (Hs o Ho) as [(_ & _ & tok & typed & d & _ & _ & _ & _ & Hl & Hc)|[(_ & _ & Hu' & _)|(Hp' & _)]];
    [|congruence|lia].
  eauto.
Qed.
Print Assumptions C17_token_counts.

Example C17_ex :
  exists r, parse (sample_cl default_style) [$"--in"; $"a"; $"-v"; $"-n"; $"3"; $"c"] = Ok r
    /\ map po_key r = [$"input"; $"verbose"; $"number"; []]
    /\ map po_value r = [[$"a"]; []; [$"3"]; [$"c"]]
    /\ Forall has_name sample /\ Forall sensible sample.
Proof. eexists. repeat (split; [reflexivity|]). split; [apply sample_named|apply sample_sensible]. Qed.

(** C18. Every option of a result is registered, flagged as unregistered (only if that
    was allowed), or positional, *)
Theorem C18_results_classified : forall c args res,
  cl_style_parser c = None -> Forall has_name (cl_desc c) -> Forall sensible (cl_desc c) ->
  case_fine c -> (Z.of_nat (List.length args) <= INT_MAX)%Z -> parse c args = Ok res ->
  Forall (fun o => registered c args o \/ unregistered c args o \/ positional_option args o) res.
Proof. exact sound_lemma. Qed.
Print Assumptions C18_results_classified.

(** C18. and nothing is more than one of these. *)
Theorem C18_classes_exclusive : forall c args o,
  ~ (registered c args o /\ unregistered c args o)
  /\ ~ (registered c args o /\ positional_option args o)
  /\ ~ (unregistered c args o /\ positional_option args o).
Proof.
  unfold registered, unregistered, positional_option. intros c args o. repeat split.
  - intros [(_ & H & _) (_ & _ & H' & _)]. congruence.
  - intros [(H & _) (H' & _)]. lia.
  - intros [(_ & H & _) (H' & _)]. lia.
Qed.
Print Assumptions C18_classes_exclusive.

(** C18. Unknown names are reported, wherever they stand before a "--". *)
Theorem C18_unknown_reported : forall c pre r tok typed rest,
  plain c -> cl_allow_unregistered c = false -> ~ In dashdash pre -> parse c pre = Ok r ->
  writes c tok typed -> lookup c typed = Ok None ->
  fails_with (parse c (pre ++ tok :: rest)) unknown_option.
Proof. exact unknown_lemma. Qed.
Print Assumptions C18_unknown_reported.

Example C18_ex :
  exists r, parse (sample_cl_unreg default_style) [$"-vx"; $"--foo=1"; $"-o"; $"f"; $"g"] = Ok r
    /\ map po_key r = [$"verbose"; $"-x"; $"foo"; $"output"; []]
    /\ map po_unreg r = [false; true; true; false; false]
    /\ map po_pos r = [-1; -1; -1; -1; 0]%Z
    /\ case_fine (sample_cl_unreg default_style)
    /\ writes (sample_cl default_style) $"--foo=1" $"foo"
    /\ lookup (sample_cl default_style) $"foo" = Ok None
    /\ fails_with (parse (sample_cl default_style) [$"-v"; $"a"; $"--foo=1"]) unknown_option.
Proof.
  eexists. repeat (split; [reflexivity|]). split; [left; split; reflexivity|]. split; [|split].
  - right. split; [apply sample_sensitive|]. exists $"1".
    apply (sp_long _ $"foo" $"1"); try reflexivity; try discriminate. unfold without. cbn. intuition discriminate.
  - reflexivity.
  - eexists. split; reflexivity.
Qed.

(** C19. Positional options are numbered in order. *)
Theorem C19_numbering : forall c args res,
  cl_style_parser c = None -> parse c args = Ok res ->
  forall i o, nth_error (positionals res) i = Some o -> po_pos o = Z.of_nat i.
Proof. exact numbered_lemma. Qed.
Print Assumptions C19_numbering.

(** C19. A positional description only names them: the result is that without it, with
    the k-th positional option renamed to the name for position k; unless there are too
    many, which is the only additional reason to fail. *)
Theorem C19_naming : forall c p args,
  cl_style_parser c = None ->
  (forall r, parse (with_positional c None) args = Ok r ->
     (count_positionals r <= max_total_count p)%Z ->
     exists r', parse (with_positional c (Some p)) args = Ok r' /\ Forall2 (renamed p) r r')
  /\ (forall r, parse (with_positional c None) args = Ok r ->
       (count_positionals r > max_total_count p)%Z ->
       parse (with_positional c (Some p)) args = Throw (plain_exn too_many_positional_options_error))
  /\ ((forall r, parse (with_positional c None) args <> Ok r) ->
       parse (with_positional c (Some p)) args = parse (with_positional c None) args).
Proof. exact naming_lemma. Qed.
Print Assumptions C19_naming.

Definition sample_pos : positional := mk_pos [$"input"; $"input"; $"output"] [].
Example C19_ex :
  exists r, parse (with_positional (sample_cl default_style) (Some sample_pos))
              [$"a"; $"-v"; $"b"; $"-n3"; $"--"; $"-c"] = Ok r
    /\ map po_key r = [$"input"; $"verbose"; $"input"; $"number"; $"output"]
    /\ map po_pos r = [0; -1; 1; -1; 2]%Z
    /\ fails_with (parse (with_positional (sample_cl default_style) (Some sample_pos))
         [$"a"; $"b"; $"c"; $"d"]) too_many_positional_options_error.
Proof. eexists. repeat (split; [reflexivity|]). eexists. split; reflexivity. Qed.

(** C20. Blocks of positions; *)
Theorem C20_blocks : forall blocks,
  exists p, add_all positional_empty (map (fun b => (fst b, Z.of_nat (snd b))) blocks) = Ok p
    /\ max_total_count p = Z.of_nat (List.length (expand blocks))
    /\ (forall k n, nth_error (expand blocks) k = Some n -> name_for_position p (Z.of_nat k) = Ok n)
    /\ (forall k, (Z.of_nat k >= max_total_count p)%Z ->
         name_for_position p (Z.of_nat k) = Undef UB_assert).
Proof. exact blocks_lemma. Qed.
Print Assumptions C20_blocks.

(** C20. with an unlimited block (which names what the others, added before or after it,
    leave over); *)
Theorem C20_unlimited : forall blocks1 blocks2 t,
  t <> [] ->
  exists p, add_all positional_empty
      (map (fun b => (fst b, Z.of_nat (snd b))) blocks1 ++ (t, (-1)%Z)
       :: map (fun b => (fst b, Z.of_nat (snd b))) blocks2) = Ok p
    /\ max_total_count p = UINT_MAX
    /\ forall k, (Z.of_nat k < UINT_MAX)%Z ->
         name_for_position p (Z.of_nat k) = Ok (nth k (expand (blocks1 ++ blocks2)) t).
Proof. exact trailing_lemma. Qed.
Print Assumptions C20_unlimited.

(** C20. a second unlimited block is a failed assertion; *)
Theorem C20_second_unlimited : forall blocks t t2,
  t <> [] ->
  add_all positional_empty
    (map (fun b => (fst b, Z.of_nat (snd b))) blocks ++ [(t, (-1)%Z); (t2, (-1)%Z)]) = Undef UB_assert.
Proof.
  intros blocks t t2 Ht. rewrite add_blocks. cbn [add_all positional_empty pos_names pos_trailing].
  unfold positional_add at 1. cbn. destruct t; [contradiction|]. reflexivity.
Qed.
Print Assumptions C20_second_unlimited.

(** C20. a negative count takes positions away. *)
Theorem C20_negative_removes : forall p n k,
  1 < k -> k <= List.length (pos_names p) ->
  positional_add p n (- Z.of_nat k)
  = Ok (mk_pos (firstn (List.length (pos_names p) - k) (pos_names p)) (pos_trailing p)).
Proof. exact negative_lemma. Qed.
Print Assumptions C20_negative_removes.

Example C20_ex :
  expand [($"in", 2); ($"out", 0); ($"log", 1)] = [$"in"; $"in"; $"log"]
  /\ (exists p, add_all positional_empty [($"in", 2); ($"log", 1); ($"x", -2)]%Z = Ok p
      /\ pos_names p = [$"in"] /\ max_total_count p = 1%Z).
Proof. split; [reflexivity|]. eexists. split; reflexivity || (split; reflexivity). Qed.

(** C21. "t v" with a [value_token] v reads like the spelling with v adjacent; *)
Theorem C21_next_token_taken : forall c t typed v tok1 key rest,
  plain c -> has (cl_style c) allow_long_disguise = false ->
  bare c t typed -> spelled c tok1 typed v -> takes_one c typed key ->
  (forall d, lookup c typed = Ok (Some d) -> vs_min (od_sem d) = 1%Z) ->
  value_token c v ->
  (forall r, parse c (t :: v :: rest) = Ok r ->
     exists r', parse c (tok1 :: rest) = Ok r' /\ Forall2 same_option r r')
  /\ (forall r, parse c (tok1 :: rest) = Ok r ->
     exists r', parse c (t :: v :: rest) = Ok r' /\ Forall2 same_option r r').
Proof. exact next_value_lemma. Qed.
Print Assumptions C21_next_token_taken.

(** C21. a known short option is not taken; *)
Theorem C21_known_short_not_taken : forall c t typed d b d2 rest,
  plain c -> bare c t typed -> lookup c typed = Ok (Some d) -> (1 <= vs_min (od_sem d))%Z ->
  has (cl_style c) allow_short = true -> has (cl_style c) allow_dash_for_short = true ->
  has (cl_style c) allow_long_disguise = false -> case_sensitive c ->
  b <> c_dash -> lookup c [c_dash; b] = Ok (Some d2) ->
  fails_with (parse c (t :: [c_dash; b] :: rest)) (invalid_command_line_syntax missing_parameter).
Proof. exact not_taken_lemma. Qed.
Print Assumptions C21_known_short_not_taken.

(** C21. a long option always is, known or not. *)
Theorem C21_long_option_taken : forall c t typed n tok1 key rest r,
  plain c -> has (cl_style c) allow_long_disguise = false -> case_sensitive c ->
  Forall plain_longs (cl_desc c) -> Forall one_letter_short (cl_desc c) ->
  bare c t typed -> spelled c tok1 typed (dashdash ++ n) -> takes_one c typed key ->
  (forall d, lookup c typed = Ok (Some d) -> vs_min (od_sem d) = 1%Z) ->
  n <> [] -> without c_eq n ->
  parse c (tok1 :: rest) = Ok r ->
  exists r', parse c (t :: (dashdash ++ n) :: rest) = Ok r' /\ Forall2 same_option r r'.
Proof.
  intros c t typed n tok1 key rest r H1 H2 H3 H4 H5 H6 H7 H8 H9 H10 H11.
  apply (next_value_lemma c t typed (dashdash ++ n) tok1 key rest); auto.
  apply vt_long; auto.
  - intros m ->. exfalso. apply H11. apply in_or_app. right. now left.
  - now apply long_is_no_name.
Qed.
Print Assumptions C21_long_option_taken.

(** C21. So is the terminator: it then ends nothing, the tokens after it are read as usual. *)
Theorem C21_terminator_taken : forall c t typed tok1 key rest r,
  plain c -> has (cl_style c) allow_long_disguise = false ->
  bare c t typed -> spelled c tok1 typed dashdash -> takes_one c typed key ->
  (forall d, lookup c typed = Ok (Some d) -> vs_min (od_sem d) = 1%Z) ->
  parse c (tok1 :: rest) = Ok r ->
  exists r', parse c (t :: dashdash :: rest) = Ok r' /\ Forall2 same_option r r'.
Proof.
  intros c t typed tok1 key rest r H1 H2 H3 H4 H5 H6.
  apply (next_value_lemma c t typed dashdash tok1 key rest); auto.
  apply vt_word. right. right. now left.
Qed.
Print Assumptions C21_terminator_taken.

Example C21_ex :
  (exists o, parse (sample_cl default_style) [$"-o"; $"--help"] = Ok [o]
     /\ po_key o = $"output" /\ po_value o = [$"--help"])
  /\ fails_with (parse (sample_cl default_style) [$"-o"; $"-h"]) (invalid_command_line_syntax missing_parameter)
  /\ (exists o h, parse (sample_cl default_style) [$"-o"; $"--"; $"-h"] = Ok [o; h]
     /\ po_value o = [$"--"] /\ po_key h = $"help")
  /\ (exists o, parse (sample_cl default_style) [$"-o"; $"-vh"] = Ok [o] /\ po_value o = [$"-vh"])
  /\ bare (sample_cl default_style) $"-o" $"-o"
  /\ spelled (sample_cl default_style) $"-o--help" $"-o" $"--help"
  /\ Forall plain_longs sample /\ Forall one_letter_short sample
  /\ value_token (sample_cl default_style) $"-vh".
Proof.
  split; [eexists; repeat split|]. split; [eexists; split; reflexivity|].
  split; [do 2 eexists; repeat split|]. split; [eexists; repeat split|].
  split; [apply bare_short; try reflexivity; [apply sample_sensitive|discriminate]|].
  split.
  { apply (sp_short _ "o"%char $"--help"); try reflexivity; try discriminate.
    split; [reflexivity|]. split; [apply KeyFacts.foldable_sensitive|]. cbn. discriminate. }
  split.
  { unfold sample. repeat (first [apply Forall_nil | apply Forall_cons]);
      unfold plain_longs; repeat (first [apply Forall_nil | apply Forall_cons]);
      intros a l' E; injection E as <- _; split; discriminate. }
  split.
  { unfold sample. repeat (first [apply Forall_nil | apply Forall_cons]);
      ((left; reflexivity) || (right; eexists; reflexivity)). }
  apply (vt_short _ "v"%char $"h"); try reflexivity; [apply sample_sensitive|discriminate|].
  repeat constructor; eexists; reflexivity.
Qed.

(** C22. An option that may take more tokens than it needs takes the words after it,
    adjacent or not: first as many as it needs, in the second pass up to its maximum; the
    rest is positional. *)
Theorem C22_values_not_adjacent : forall c t typed d key vals,
  plain c -> has (cl_style c) allow_long_disguise = false -> cl_positional c = None ->
  bare c t typed -> lookup c typed = Ok (Some d) -> is_key d typed key -> key <> [] ->
  lookup c key = Ok (Some d) ->
  (0 <= vs_min (od_sem d) < vs_max (od_sem d))%Z ->
  (vs_max (od_sem d) <= INT_MAX \/ vs_max (od_sem d) = UINT_MAX)%Z ->
  (vs_min (od_sem d) <= Z.of_nat (List.length vals) < INT_MAX)%Z ->
  Forall (fun v => word v /\ v <> dashdash) vals ->
  exists o tail, parse c (t :: vals) = Ok (o :: tail)
    /\ po_key o = key /\ po_pos o = (-1)%Z /\ po_unreg o = false
    /\ po_value o = firstn (Z.to_nat (vs_max (od_sem d))) vals
    /\ positional_items 0 (skipn (Z.to_nat (vs_max (od_sem d))) vals) tail.
Proof. exact implicit_lemma. Qed.
Print Assumptions C22_values_not_adjacent.

(** C22. In particular an option with an implicit value (level: 0 or 1 tokens). *)
Example C22_ex :
  vs_min (od_sem o_level) = 0%Z /\ vs_max (od_sem o_level) = 1%Z
  /\ bare (sample_cl default_style) $"--level" $"level"
  /\ exists o1 o2, parse (sample_cl default_style) [$"--level"; $"file"; $"x"] = Ok [o1; o2]
     /\ po_key o1 = $"level" /\ po_value o1 = [$"file"] /\ po_value o2 = [$"x"] /\ po_pos o2 = 0%Z
     /\ word $"file".
Proof.
  split; [reflexivity|]. split; [reflexivity|]. split.
  - apply (bare_long _ $"level"); try reflexivity; try discriminate. unfold without. cbn. intuition discriminate.
  - do 2 eexists. repeat (split; [reflexivity|]). right. right. right.
    exists "f"%char, $"ile". repeat split; discriminate.
Qed.

(** C23. What is collected are the original tokens of the unregistered (and, on request,
    the positional) options; *)
Theorem C23_collects : forall os,
  collect_unrecognized os exclude_positional = tokens_of (filter po_unreg os)
  /\ collect_unrecognized os include_positional
     = tokens_of (filter (fun o => po_unreg o || negb (Z.eqb (po_pos o) (-1))) os).
Proof.
  intros os. split; rewrite collect_lemma; [|reflexivity]. f_equal. apply filter_ext. intros o.
  apply orb_false_r.
Qed.
Print Assumptions C23_collects.

(** C23. without any known option that is the whole command line but the first "--". *)
Theorem C23_pass_through : forall c args res,
  plain c -> has (cl_style c) allow_long_disguise = false -> cl_desc c = [] -> parse c args = Ok res ->
  ~ In dashdash args /\ collect_unrecognized res include_positional = args
  \/ exists pre post, ~ In dashdash pre /\ args = pre ++ dashdash :: post
       /\ collect_unrecognized res include_positional = pre ++ post.
Proof. exact collect_all_lemma. Qed.
Print Assumptions C23_pass_through.

Example C23_ex :
  exists r, parse (mk_cl default_style true [] None None None)
              [$"a"; $"-vx"; $"--foo=1"; $"--"; $"-o"; $"--"] = Ok r
    /\ collect_unrecognized r include_positional = [$"a"; $"-vx"; $"--foo=1"; $"-o"; $"--"]
    /\ collect_unrecognized r exclude_positional = [$"-vx"; $"--foo=1"].
Proof. eexists. repeat (split; [reflexivity|]). reflexivity. Qed.

(** C24. Tokens that the additional parser maps to options are such options, whatever
    they look like; *)
Theorem C24_additional_first : forall c f toks kvs,
  cl_style_parser c = None -> cl_additional c = Some f -> Forall2 (mapped c f) toks kvs ->
  exists res, parse c toks = Ok res
    /\ named_options (map fst kvs) (map (fun kv => if is_empty (snd kv) then [] else [snd kv]) kvs)
         (map (fun _ => []) toks) res.
Proof. exact additional_lemma. Qed.
Print Assumptions C24_additional_first.

(** C24. an additional parser that never recognises anything changes nothing. *)
Theorem C24_null_additional : forall c f args,
  cl_style_parser c = None -> cl_additional c = Some f -> (forall tok, fst (f tok) = []) ->
  parse c args = parse (without_additional c) args.
Proof. intros c f args. exact (null_additional_lemma c f (List.length args) args). Qed.
Print Assumptions C24_null_additional.

(** C24. If such an option takes no further values, it does not influence how the rest of
    the command line is parsed. *)
Theorem C24_additional_head : forall c f tok key v d,
  cl_style_parser c = None -> cl_additional c = Some f -> mapped c f tok (key, v) ->
  lookup c key = Ok (Some d) -> (vs_max (od_sem d) <= (if is_empty v then 0 else 1))%Z ->
  exists o, (forall rest, parse c (tok :: rest) = (let* r := parse c rest in Ok (o :: r)))
    /\ po_key o = key /\ po_value o = (if is_empty v then [] else [v]) /\ po_pos o = (-1)%Z
    /\ po_unreg o = false /\ po_orig o = [].
Proof.
  intros c f tok key v d H1 H2 H3 H4 H5.
  destruct (complete_step c tok key _ (cp_mapped c tok f key v d H1 H2 H3 H4 H5)) as (o & H).
  rewrite H2 in H. eauto.
Qed.
Print Assumptions C24_additional_head.

(** Maps "@v" to output=v and "--" to the flag verbose. *)
Definition at_parser (s : str) : str * str :=
  match s with
  | "@"%char :: v => ($"output", v)
  | _ => if str_eqb s $"--" then ($"-v", []) else ([], [])
  end.
Example C24_ex :
  mapped (mk_cl default_style false sample None (Some at_parser) None) at_parser $"@f" ($"output", $"f")
  /\ mapped (mk_cl default_style false sample None (Some at_parser) None) at_parser $"--" ($"verbose", []).
Proof.
  split; unfold mapped.
  - exists $"output", o_output. repeat split; try reflexivity; try discriminate.
    + left. exists $"output", []. repeat split. cbn. intuition discriminate.
    + eexists. reflexivity.
  - exists $"-v", o_verbose. repeat (split; try reflexivity; try discriminate); try (intros H; now contradiction H).
    + left. exists $"verbose", []. repeat split. cbn. intuition discriminate.
    + eexists. reflexivity.
    + now contradiction H.
Qed.

(** C25. A disguised long option that resolves is read exactly like the long option, *)
Theorem C25_disguised_like_long : forall c b n rest d,
  plain c -> has (cl_style c) allow_long = true -> has (cl_style c) allow_long_disguise = true ->
  disguise_char c b n -> n <> [] -> without c_eq n -> lookup c n = Ok (Some d) ->
  parse c ((b :: n) :: rest) = parse c ((dashdash ++ n) :: rest)
  /\ forall v, v <> [] ->
     parse c ((b :: n ++ [c_eq] ++ v) :: rest) = parse c ((dashdash ++ n ++ [c_eq] ++ v) :: rest).
Proof.
  intros c b n rest d H1 H2 H3 H4 H5 H6 H7. split; [eapply disguised_lemma; eauto|].
  intros v Hv. eapply disguised_eq_lemma; eauto.
Qed.
Print Assumptions C25_disguised_like_long.

(** C25. down to the original tokens: these are not what was typed. *)
Theorem C25_original_tokens_refuted :
  exists c args res, plain c /\ set_style (cl_style c) = Ok (cl_style c) /\ parse c args = Ok res
    /\ ~ In dashdash args /\ tokens_of res <> args /\ tokens_of res = [$"--help"].
Proof.
  exists (sample_cl disguise_style), [$"-help"]. eexists. repeat split; try reflexivity.
  - intros [E|[]]. discriminate.
  - discriminate.
Qed.
Print Assumptions C25_original_tokens_refuted.

Example C25_ex :
  disguise_char (sample_cl disguise_style) c_dash $"help"
  /\ lookup (sample_cl disguise_style) $"help" = Ok (Some o_help).
Proof. split; [left; split; [reflexivity|discriminate]|reflexivity]. Qed.

(** C26. "--=v" *)
Theorem C26_nameless_value_positional : forall c v,
  plain c -> has (cl_style c) allow_long = true -> cl_positional c = None -> v <> [] ->
  exists o, parse c [dashdash ++ [c_eq] ++ v] = Ok [o]
    /\ po_key o = [] /\ po_pos o = 0%Z /\ po_value o = [v] /\ po_unreg o = false.
Proof. exact eq_positional_lemma. Qed.
Print Assumptions C26_nameless_value_positional.

Example C26_ex :
  exists o, parse (sample_cl default_style) [$"--=v"] = Ok [o] /\ po_value o = [$"v"] /\ po_pos o = 0%Z.
Proof. eexists. repeat split. Qed.

(** C27. No undefined behaviour when keys resolve. *)
Theorem C27_no_undefined_behaviour : forall c args,
  cl_style_parser c = None ->
  (case_sensitive c
   \/ cl_additional c = None
      /\ Forall (fun d => Forall ascii7 (od_longs d) /\ ascii7 (od_short d)) (cl_desc c)
      /\ Forall (fun tok => option_like tok -> ascii7 tok) args) ->
  Forall has_name (cl_desc c) -> Forall (fun d => sensible d /\ fits d) (cl_desc c) ->
  (forall d typed key, lookup c typed = Ok (Some d) -> is_key d typed key -> unambiguous c key) ->
  (Z.of_nat (List.length args) < INT_MAX)%Z ->
  defined (parse c args).
Proof. exact defined_lemma. Qed.
Print Assumptions C27_no_undefined_behaviour.

(** C27. The condition is met if no name is shared and there are no wildcards. *)
Example C27_ex :
  let c := mk_cl default_style false [o_help; o_output; o_number] None None None in
  forall args, (Z.of_nat (List.length args) < INT_MAX)%Z -> defined (parse c args).
Proof.
  intros c args Hlen. apply C27_no_undefined_behaviour; auto.
  - left. split; reflexivity.
  - repeat constructor; cbn; discriminate.
  - repeat constructor; cbn; unfold fits, UINT_MAX, INT_MAX; cbn; lia.
  - intros d typed key Hl Hk. apply CmdlineFacts.lookup_In in Hl. apply is_key_unique in Hk. subst key.
    destruct Hl as [<-|[<-|[<-|[]]]]; eexists; reflexivity.
Qed.

(** C27. With two options of the same name, a sticky group of flags makes the parser read
    the first of no tokens. *)
Theorem C27_shared_key_refuted :
  exists c args, plain c /\ case_sensitive c /\ parse c args = Undef UB_index.
Proof.
  exists (mk_cl default_style false
            [mk_od $"-a" [$"all"] [] tflag; mk_od $"-b" [$"all"] [] tflag] None None None), [$"-ab"].
  repeat split.
Qed.
Print Assumptions C27_shared_key_refuted.

(** C45. Registered options in a result are found by the exact lookup of [store], *)
Theorem C45_store_finds : forall c args res,
  cl_style_parser c = None -> Forall has_name (cl_desc c) -> Forall sensible (cl_desc c) ->
  (Z.of_nat (List.length args) <= INT_MAX)%Z ->
  case_sensitive c /\ (has (cl_style c) allow_guessing = false \/ Forall plain_key (cl_desc c))
  \/ has (cl_style c) long_case_insensitive = true /\ has (cl_style c) short_case_insensitive = true
     /\ case_fine c /\ Forall plain_key (cl_desc c) ->
  parse c args = Ok res ->
  forall o, In o res -> po_unreg o = false -> po_pos o = (-1)%Z ->
  exists d, find (cl_desc c) (po_key o) false false false = Ok d.
Proof. exact found_lemma. Qed.
Print Assumptions C45_store_finds.

Example C45_ex :
  let c := mk_cl nocase_style false [o_help; o_output; o_number] None None None in
  exists r, parse c [$"--OUT=f"; $"-N3"] = Ok r /\ map po_key r = [$"output"; $"number"]
    /\ Forall plain_key (cl_desc c) /\ case_fine c.
Proof.
  eexists. split; [reflexivity|]. split; [reflexivity|]. split.
  - repeat constructor; cbn; intuition discriminate.
  - right. repeat split; try reflexivity; repeat constructor; unfold ascii7_char; cbn; lia.
Qed.

(** C45. but not those named by an abbreviation of a wildcard (in the default style), *)
Theorem C45_abbreviated_wildcard_refuted :
  exists args r o, parse (sample_cl default_style) args = Ok r /\ In o r
    /\ po_unreg o = false /\ po_pos o = (-1)%Z
    /\ fails_with (find sample (po_key o) false false false) unknown_option.
Proof.
  exists [$"--lo=x"]. do 2 eexists. split; [reflexivity|]. split; [now left|].
  repeat (split; [reflexivity|]). eexists. split; reflexivity.
Qed.
Print Assumptions C45_abbreviated_wildcard_refuted.

(** C45. nor wildcards typed in another case. *)
Theorem C45_wildcard_case_refuted :
  exists args r o, parse (sample_cl nocase_style) args = Ok r /\ In o r
    /\ po_unreg o = false /\ po_pos o = (-1)%Z
    /\ fails_with (find sample (po_key o) false false false) unknown_option.
Proof.
  exists [$"--LOG.file=x"]. do 2 eexists. split; [reflexivity|]. split; [now left|].
  repeat (split; [reflexivity|]). eexists. split; reflexivity.
Qed.
Print Assumptions C45_wildcard_case_refuted.

(** C57. Options that take no further tokens do not influence how the rest is parsed:
    neither its result nor its failure. *)
Theorem C57_compositional : forall c toks keys vals,
  Forall2 (fun tok kv => complete c tok (fst kv) (snd kv)) toks (combine keys vals) ->
  List.length keys = List.length vals ->
  exists os, (forall rest, parse c (toks ++ rest) = (let* r := parse c rest in Ok (os ++ r)))
    /\ named_options keys vals
         (match cl_additional c with None => map (fun t => [t]) toks | Some _ => map (fun _ => []) toks end) os.
Proof. exact prefix_lemma. Qed.
Print Assumptions C57_compositional.

Example C57_ex :
  complete (sample_cl default_style) $"--output=f" $"output" [$"f"]
  /\ complete (sample_cl default_style) $"-v" $"verbose" []
  /\ complete (mk_cl default_style false sample None (Some at_parser) None) $"--" $"verbose" []
  /\ complete (mk_cl default_style false sample None (Some at_parser) None) $"@f" $"output" [$"f"].
Proof.
  split; [|split; [|split]].
  - apply (cp_value _ _ $"output" $"f" $"output" o_output); try reflexivity; try discriminate.
    + split; reflexivity.
    + apply (sp_long _ $"output" $"f"); try reflexivity; try discriminate.
      unfold without. cbn. intuition discriminate.
    + left. exists $"output", []. repeat split. cbn. intuition discriminate.
  - apply (cp_flag _ _ $"-v" $"verbose" o_verbose); try reflexivity; try discriminate.
    + split; reflexivity.
    + apply bare_short; try reflexivity; [apply sample_sensitive|discriminate].
    + left. exists $"verbose", []. repeat split. cbn. intuition discriminate.
  - apply (cp_mapped _ _ at_parser $"verbose" [] o_verbose); try reflexivity. apply C24_ex.
  - apply (cp_mapped _ _ at_parser $"output" $"f" o_output); try reflexivity. apply C24_ex.
Qed.
