(** C01-C07: declarations, matching, lookup. *)

From Coq Require Import List Ascii String NArith ZArith Bool Permutation.
From Verif Require Import Base Errors Spec BaseFacts Values OptDesc SpecLookup LookupFacts Samples.
Import ListNotations.

(** C01. A declaration [p1,p2,...,last] (pieces without comma, last piece not empty)
    is decoded as [decoded] says. *)
Theorem C01_names_decoded : forall init last sem text,
  Forall (without c_comma) init -> without c_comma last -> last <> [] ->
  exists d, new_option (join [c_comma] (init ++ [last])) sem text = Ok d
    /\ decoded (init ++ [last]) (od_short d) (od_longs d)
    /\ od_text d = text /\ od_sem d = sem.
Proof. exact names_decoded_lemma. Qed.
Print Assumptions C01_names_decoded.

(** C01. A trailing comma is ignored: "a,b," declares the pieces a, b. *)
Theorem C01_trailing_comma : forall pieces sem text,
  Forall (without c_comma) pieces -> pieces <> [] ->
  exists d, new_option (join [c_comma] pieces ++ [c_comma]) sem text = Ok d
    /\ decoded pieces (od_short d) (od_longs d)
    /\ od_text d = text /\ od_sem d = sem.
Proof. exact names_trailing_comma_lemma. Qed.
Print Assumptions C01_trailing_comma.

(** C01. The empty declaration violates an assertion. *)
Theorem C01_empty_declaration_refuted : forall sem text, new_option [] sem text = Undef UB_assert.
Proof. exact names_empty_lemma. Qed.
Print Assumptions C01_empty_declaration_refuted.

Example C01_ex1 :
  new_option $"input-file,in,i" tflag [] = Ok (mk_od $"-i" [$"input-file"; $"in"] [] tflag)
  /\ join [c_comma] ([$"input-file"; $"in"] ++ [$"i"]) = $"input-file,in,i"
  /\ new_option $",i" tflag [] = Ok (mk_od $"-i" [] [] tflag)
  /\ new_option $"i" tflag [] = Ok (mk_od [] [$"i"] [] tflag).
Proof. repeat split. Qed.

(** C02. [match] gives exactly the result [match_spec] describes. *)
Theorem C02_match_characterised : forall d typed guess lic sic,
  (lic = true -> ascii7 typed) -> foldable_option d lic sic ->
  exists r, od_match d typed guess lic sic = Ok r /\ match_spec d typed guess lic sic r.
Proof. exact match_characterised_lemma. Qed.
Print Assumptions C02_match_characterised.

(** C02. The three cases exclude each other. *)
Theorem C02_match_unique : forall d typed guess lic sic r1 r2,
  match_spec d typed guess lic sic r1 -> match_spec d typed guess lic sic r2 -> r1 = r2.
Proof. exact match_spec_unique. Qed.
Print Assumptions C02_match_unique.

(** C02. The order of the long names does not matter. *)
Theorem C02_long_name_order : forall d d' typed guess lic sic,
  (lic = true -> ascii7 typed) -> foldable_option d lic sic ->
  Permutation (od_longs d) (od_longs d') -> od_short d = od_short d' ->
  od_match d typed guess lic sic = od_match d' typed guess lic sic.
Proof. exact match_longs_order_lemma. Qed.
Print Assumptions C02_long_name_order.

Example C02_ex :
  od_match o_input $"inp" true false false = Ok approximate_match
  /\ od_match o_input $"inp" false false false = Ok no_match
  /\ od_match o_input $"IN" true true false = Ok full_match
  /\ od_match o_log $"log.x" false false false = Ok approximate_match
  /\ od_match o_help $"-h" false false false = Ok full_match
  /\ foldable_option o_input true true.
Proof.
  repeat split; intros _; repeat (constructor; try reflexivity).
Qed.

(** C03. Lookup in terms of the full and the approximate matches. *)
Theorem C03_lookup_characterised : forall ds typed guess lic sic,
  foldable ds typed lic sic ->
  exists fulls apps,
    selects (fun d => full d typed lic sic) ds fulls
    /\ selects (fun d => ~ full d typed lic sic /\ approximate d typed guess lic) ds apps
    /\ lookup_result typed fulls apps (find_nothrow ds typed guess lic sic).
Proof. exact find_characterised_lemma. Qed.
Print Assumptions C03_lookup_characterised.

(** C03. [find] throws [unknown_option] exactly where [find_nothrow] returns null. *)
Theorem C03_find_throws_unknown : forall ds typed guess lic sic,
  find ds typed guess lic sic =
  match find_nothrow ds typed guess lic sic with
  | Ok (Some d) => Ok d
  | Ok None => Throw (mk_unknown_option [])
  | Throw e => Throw e
  | Undef u => Undef u
  | NoFuel => NoFuel
  end.
Proof. exact find_unknown_lemma. Qed.
Print Assumptions C03_find_throws_unknown.

Example C03_ex :
  foldable sample $"he" false false
  /\ find_nothrow sample $"he" true false false = Ok (Some o_help)
  /\ find_nothrow sample $"l" true false false
     = Throw (mk_ambiguous [$"l"; $"level"])
  /\ find_nothrow sample $"nothing" true false false = Ok None.
Proof.
  repeat split; try discriminate.
  repeat (constructor; [split; discriminate|]). constructor.
Qed.

(** C04. Registration order is irrelevant: same option, same error up to the order of
    the alternatives it lists. *)
Theorem C04_lookup_order : forall ds ds' typed guess lic sic,
  Permutation ds ds' ->
  same_lookup (@Permutation str)
    (find_nothrow ds typed guess lic sic) (find_nothrow ds' typed guess lic sic).
Proof. exact find_order_lemma. Qed.
Print Assumptions C04_lookup_order.

Example C04_ex :
  Permutation sample (rev sample)
  /\ find_nothrow (rev sample) $"he" true false false = Ok (Some o_help)
  /\ find_nothrow (rev sample) $"l" true false false = Throw (mk_ambiguous [$"level"; $"l"]).
Proof. repeat split. apply Permutation_rev. Qed.

(** C05. With case-insensitive lookup the case of the typed name is irrelevant (the
    key of a wildcard option is the typed spelling, so the alternatives listed by an
    ambiguity are equal up to case only). *)
Theorem C05_case_insensitive : forall ds typed1 typed2 guess sic,
  same_up_to_case typed1 typed2 ->
  same_lookup (Forall2 same_up_to_case)
    (find_nothrow ds typed1 guess true sic) (find_nothrow ds typed2 guess true sic).
Proof. exact find_case_lemma. Qed.
Print Assumptions C05_case_insensitive.

Example C05_ex :
  same_up_to_case $"HeLP" $"help"
  /\ find_nothrow sample $"HeLP" true true true = Ok (Some o_help)
  /\ find_nothrow sample $"HeLP" true false false = Ok None.
Proof.
  repeat split. now apply same_up_to_case_map.
Qed.

(** C06. With [short_case_insensitive] but not [long_case_insensitive], a typed
    upper-case short option is unknown, whatever is registered (also if it is
    registered in exactly that spelling). *)
Theorem C06_short_ci_alone_refuted : forall ds c guess,
  is_upper c -> Forall plain_longs ds -> Forall (fun d => ascii7 (od_short d)) ds ->
  find_nothrow ds [c_dash; c] guess false true = Ok None.
Proof. exact sic_only_lemma. Qed.
Print Assumptions C06_short_ci_alone_refuted.

Example C06_ex :
  let o := mk_od $"-A" [] [] tflag in
  is_upper "A" /\ Forall plain_longs [o] /\ ascii7 (od_short o)
  /\ find_nothrow [o] $"-A" true false true = Ok None
  /\ find_nothrow [o] $"-A" true false false = Ok (Some o)
  /\ find_nothrow [o] $"-a" true false true = Ok (Some o).
Proof. repeat split; repeat constructor; discriminate. Qed.

(** C06. With [long_case_insensitive] alone an option registered as "-C" (upper case)
    cannot be reached by any spelling, *)
Theorem C06_long_ci_unreachable : forall d c typed guess,
  od_short d = [c_dash; c] -> od_longs d = [] -> is_upper c -> ascii7 typed ->
  od_match d typed guess true false = Ok no_match.
Proof. exact lic_only_unreachable_lemma. Qed.
Print Assumptions C06_long_ci_unreachable.

(** while typing "-C" reaches the option registered as "-c". *)
Theorem C06_long_ci_reaches_lower : forall d c c' guess,
  od_short d = [c_dash; c'] -> lower_of c c' -> ascii7 [c] -> Forall ascii7 (od_longs d) ->
  od_match d [c_dash; c] guess true false = Ok full_match.
Proof. exact lic_only_lower_lemma. Qed.
Print Assumptions C06_long_ci_reaches_lower.

(** C06. With both flags the case of a short option does not matter, neither as registered nor as typed. *)
Theorem C06_both_flags : forall d c c' guess,
  od_short d = [c_dash; c'] -> same_up_to_case [c] [c'] -> ascii7 [c; c'] -> Forall ascii7 (od_longs d) ->
  od_match d [c_dash; c] guess true true = Ok full_match.
Proof.
  intros d c c' guess Hs (u & H1 & H2) Ha Hl. inversion Ha as [|? ? Hc Hc']; subst.
  assert (Hd : ascii7_char c_dash) by reflexivity.
  destruct (C02_match_characterised d [c_dash; c] guess true true) as (r & Hr & Hm).
  - intros _. repeat constructor; auto.
  - split; intros _; [exact Hl|]. rewrite Hs. constructor; auto.
  - assert (Hf : full d [c_dash; c] true true).
    { right. exists (c_dash :: u). rewrite Hs. cbn [folded]. split; constructor; auto; right; (split; [intros [K _]; vm_compute in K; apply K; reflexivity|reflexivity]). }
    destruct r; auto; destruct Hm as [Hn _]; contradiction.
Qed.
Print Assumptions C06_both_flags.

Example C06_ex2 :
  let up := mk_od $"-A" [] [] tflag in
  let low := mk_od $"-a" [] [] tvalue in
  find_nothrow [up; low] $"-A" true true false = Ok (Some low).
Proof. reflexivity. Qed.

(** C07. Case-sensitive lookup has no undefined behaviour; *)
Theorem C07_sensitive_defined : forall ds typed guess u,
  find_nothrow ds typed guess false false <> Undef u.
Proof. exact no_ub_sensitive. Qed.
Print Assumptions C07_sensitive_defined.

(** nor has any lookup that folds only 7-bit ASCII names; *)
Theorem C07_ascii_defined : forall ds typed guess lic sic,
  foldable ds typed lic sic -> forall u, find_nothrow ds typed guess lic sic <> Undef u.
Proof. exact no_ub_find. Qed.
Print Assumptions C07_ascii_defined.

(** but any byte of 128 or more in the typed name triggers it. *)
Theorem C07_non_ascii_undefined : forall ds typed guess sic,
  ds <> [] -> ~ ascii7 typed -> find_nothrow ds typed guess true sic = Undef UB_ctype.
Proof. exact ub_typed. Qed.
Print Assumptions C07_non_ascii_undefined.

Example C07_ex :
  foldable sample $"HELP" true true /\ ~ ascii7 [ascii_of_N 233]
  /\ find_nothrow sample [ascii_of_N 233] true true true = Undef UB_ctype.
Proof.
  split; [|split; [|reflexivity]].
  - split; [intros _; repeat (constructor; try reflexivity)|].
    repeat (constructor; [split; intros _; repeat (constructor; try reflexivity)|]). constructor.
  - intros H. inversion H as [|? ? Hc _]. discriminate Hc.
Qed.
