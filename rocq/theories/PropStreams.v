(** C79-C80: config files read from streams, and the array of the environment. *)

From Coq Require Import List Ascii String NArith ZArith Bool Arith Lia.
From Verif Require Import Base Errors Spec BaseFacts Values OptDesc Positional Cmdline Parsers ConfigFile Convert Wide SpecConfig
  ConfigFacts Streams SpecStreams StreamFacts StreamWideFacts SpecConvert ConvertFacts SpecWide WideFacts Samples.
From Verif Require Import Witness.
Import ListNotations.

(** C79. A stream delivers exactly one text: *)
Theorem C79_delivers : forall s : stream ascii, exists t, delivers c_nl s t /\ forall t', delivers c_nl s t' -> t' = t.
Proof.
  intros s. destruct (delivers_total _ c_nl char_newline s) as [t Ht]. exists t. split; auto.
  intros t' H. eapply (delivers_fun c_nl); eauto.
Qed.
Print Assumptions C79_delivers.

(** C79. parsing the stream gives what parsing that text gives; in particular a read error is taken for the end of
    the file, and a stream that has failed before for an empty file. *)
Theorem C79_text : forall s t ds allow,
  delivers c_nl s t -> snd (parse_config_stream s ds allow) = parse_config_file t ds allow.
Proof. exact stream_text. Qed.
Print Assumptions C79_text.

(** C79. After success the stream is exhausted, and is bad exactly if it was before or a read error has ended it. *)
Theorem C79_afterwards : forall s ds allow s' r,
  parse_config_stream s ds allow = (s', Ok r) ->
  ~ usable s' /\ (st_bad s' = true <-> st_bad s = true \/ usable s /\ st_broken s = true).
Proof.
  intros s ds allow s' r H. apply options_end in H. destruct H as (_ & Hg & Hb). split.
  - intros Hu. apply good_usable in Hu. congruence.
  - rewrite Hb, orb_true_iff, andb_true_iff, good_usable. reflexivity.
Qed.
Print Assumptions C79_afterwards.

(** C79. After an exception, either nothing was read, as the description is at fault, or the stream stands behind the
    line that is at fault: the lines before it are correct, and with it the text gives this error. *)
Theorem C79_error_position : forall s ds allow s' e,
  parse_config_stream s ds allow = (s', Throw e) ->
  (s' = s /\ forall t, parse_config_file t ds allow = Throw e)
  \/ exists ls l line, no_newlines ls /\ without c_nl l
     /\ st_rest s = unlines ls ++ line ++ st_rest s'
     /\ (line = l ++ [c_nl] \/ line = l /\ l <> [] /\ st_rest s' = [])
     /\ (exists r, parse_config_file (unlines ls) ds allow = Ok r)
     /\ parse_config_file (unlines ls ++ line) ds allow = Throw e.
Proof. intros s ds allow s' e H. apply stream_stop in H; [exact H|discriminate]. Qed.
Print Assumptions C79_error_position.

(** C79. The same holds for wide streams. *)
Theorem C79_wide : forall s t ds allow,
  delivers (N_of_ascii c_nl) s t -> wide_text t ->
  snd (wparse_config_stream s ds allow) = wparse_config_file t ds allow.
Proof.
  intros s t ds allow H Ht.
  assert (Hl : Forall wide_text (wgetline_all t)).
  { assert (G : forall r cur, wide_text r -> wide_text cur -> Forall wide_text (wgetline_aux cur r)).
    { unfold wide_text. induction r as [|x r IH]; intros cur Hr Hc; cbn [wgetline_aux].
      - destruct cur; constructor; [now apply Forall_rev|constructor].
      - inversion Hr; subst. destruct (N.eqb x (N_of_ascii c_nl)); [constructor; [now apply Forall_rev|apply IH; auto]|].
        apply IH; auto. }
    apply G; auto. constructor. }
  destruct (encode_all _ Hl) as (ls & Hm & _). eapply wstream_text; eauto.
Qed.
Print Assumptions C79_wide.

(** C79. A wide stream is read like the narrow stream with the same text in UTF-8: the results correspond, and the
    two streams are left in the same state at the same place. *)
Theorem C79_wide_stream : forall s n ds allow s' r n' q,
  same_stream s n -> wparse_config_stream s ds allow = (s', r) -> parse_config_stream n ds allow = (n', q) ->
  same_stream s' n' /\
  ((exists p ws, q = Ok p /\ r = Ok (mk_wparsed ws p) /\ Forall2 wide_of ws (pr_options p))
   \/ (exists e, q = Throw e /\ r = Throw e)
   \/ (exists u, q = Undef u /\ r = Undef u)
   \/ (q = NoFuel /\ r = NoFuel)).
Proof.
  intros s n ds allow s' r n' q Hs H1 H2. destruct (C79_delivers n) as (t & Hd & _).
  pose proof (stream_wide s n t ds allow Hs Hd) as H. now rewrite H1, H2 in H.
Qed.
Print Assumptions C79_wide_stream.

Definition stream_ds : list option_description := [o_output; o_number].

Example C79_ex :
  let text := $"output = a" ++ [c_nl] ++ $"number" ++ [c_nl] ++ $"output = b" in
  let broken := mk_stream ($"output = a" ++ [c_nl] ++ $"number") true false false false in
  let s' := fst (parse_config_stream (st_open text false) stream_ds false) in
  delivers c_nl broken ($"output = a" ++ [c_nl])
  /\ (exists r, snd (parse_config_stream broken stream_ds false) = Ok r /\ map po_value (pr_options r) = [[$"a"]])
  /\ st_bad (fst (parse_config_stream broken stream_ds false)) = true
  /\ (exists e, snd (parse_config_stream (st_open text false) stream_ds false) = Throw e) /\ st_rest s' = $"output = b"
  /\ (exists r, snd (parse_config_stream s' stream_ds false) = Ok r /\ map po_value (pr_options r) = [[$"b"]]).
Proof.
  split.
  { apply (dv_broken c_nl (mk_stream ($"output = a" ++ [c_nl] ++ $"number") true false false false) _ $"number").
    - repeat split.
    - reflexivity.
    - reflexivity.
    - right. exists $"output = a". reflexivity.
    - intros H. repeat (destruct H as [H|H]; [discriminate|]). exact H. }
  split; [compute_ex|]. split; [vm_compute; reflexivity|].
  split; [compute_ex|]. split; [vm_compute; reflexivity|]. compute_ex.
Qed.

Example C79_ex_wide :
  let wide := List.map N_of_ascii in
  let t := wide $"output = " ++ [8364%N] ++ wide [c_nl] in
  delivers (N_of_ascii c_nl) (mk_stream (t ++ wide $"junk") true false false false) t /\ wide_text t
  /\ exists p, snd (wparse_config_stream (mk_stream (t ++ wide $"junk") true false false false) stream_ds false) = Ok p
       /\ map wo_value (wp_options p) = [[[8364%N]]].
Proof.
  intros wide t. split; [|split; [|compute_ex]].
  - apply (dv_broken (N_of_ascii c_nl) (mk_stream (t ++ wide $"junk") true false false false) _ (wide $"junk")).
    + repeat split.
    + reflexivity.
    + reflexivity.
    + right. exists (wide $"output = " ++ [8364%N]). reflexivity.
    + intros H. repeat (destruct H as [H|H]; [discriminate|]). exact H.
  - repeat constructor.
Qed.

Example C79_ex_wide_stream :
  let wide := List.map N_of_ascii in
  let tail := $"output = a" ++ [c_nl] ++ $"junk" ++ [c_nl] ++ $"number = 1" in
  let n := mk_stream (map ascii_of_N [35; 226; 130; 172]%N ++ [c_nl] ++ tail) true false false false in
  let s := mk_stream ([35; 8364]%N ++ wide ([c_nl] ++ tail)) true false false false in
  same_stream s n /\ (exists e, snd (wparse_config_stream s stream_ds false) = Throw e)
  /\ st_rest (fst (wparse_config_stream s stream_ds false)) = wide $"number = 1".
Proof.
  cbv zeta. split; [|split; [compute_ex|vm_compute; reflexivity]]. repeat split. cbn [st_rest].
  change (map ascii_of_N [35; 226; 130; 172]%N ++ [c_nl] ++ $"output = a" ++ [c_nl] ++ $"junk" ++ [c_nl] ++ $"number = 1")
    with ([ascii_of_N 35] ++ map ascii_of_N [226; 130; 172]%N ++ ([c_nl] ++ $"output = a" ++ [c_nl] ++ $"junk" ++ [c_nl] ++ $"number = 1")).
  constructor; [apply (utf8_1 35%N); reflexivity|]. constructor; [apply (utf8_3 8364%N); split; [discriminate|reflexivity]|].
  set (t := [c_nl] ++ $"output = a" ++ [c_nl] ++ $"junk" ++ [c_nl] ++ $"number = 1").
  assert (H : Forall (fun c => N_of_ascii c < 128)%N t) by (repeat constructor).
  clearbody t. induction H as [|x t Hx _ IH]; [constructor|]. cbn [map].
  change (x :: t) with ([x] ++ t). constructor; [|exact IH].
  pose proof (utf8_1 (N_of_ascii x) Hx) as X. now rewrite ascii_N_embedding in X.
Qed.

(** C80. If the array of the environment ends with a null pointer, as it has to, [parse_environment] reads the strings
    before it (see C35); *)
Theorem C80_terminated : forall strings rest ds mapper,
  parse_environ (Some (map Some strings ++ None :: rest)) ds mapper = parse_environment strings ds mapper.
Proof.
  intros strings rest ds mapper. unfold parse_environ, parse_environment.
  rewrite (env_loop_list mapper rest strings []); auto. rewrite app_length, map_length. lia.
Qed.
Print Assumptions C80_terminated.

(** C80. without one it reads beyond the end of the array. *)
Theorem C80_unterminated : forall strings ds mapper r,
  parse_environment strings ds mapper = Ok r ->
  parse_environ (Some (map Some strings)) ds mapper = Undef UB_index.
Proof.
  intros strings ds mapper r H. unfold parse_environ. unfold parse_environment in H. apply bind_Ok in H. destruct H as (os & H & _).
  assert (Hf : List.length strings < S (List.length (map Some strings))) by (rewrite map_length; lia).
  pose proof (env_loop_unterminated mapper os strings [] _ Hf H) as E. cbn [map app List.length] in E. now rewrite E.
Qed.
Print Assumptions C80_unterminated.

(** C80. If the program has no environment (as after clearenv()), [parse_environment] dereferences a null pointer. *)
Theorem C80_no_environment_refuted : forall ds mapper, parse_environ None ds mapper = Undef UB_null.
Proof. reflexivity. Qed.
Print Assumptions C80_no_environment_refuted.

Example C80_ex :
  exists r, parse_environ (Some [Some $"A=x=y"; Some $"B="; None; Some $"C"]) stream_ds (fun n => Ok n) = Ok r
    /\ map (fun o => (po_key o, po_value o)) (pr_options r) = [($"A", [$"x=y"]); ($"B", [[]])].
Proof. compute_ex. Qed.
