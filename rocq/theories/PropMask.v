(** C91: config files read from streams that throw. *)

From Coq Require Import List Ascii String NArith ZArith Bool Arith Lia.
From Verif Require Import Base Errors Spec BaseFacts Values OptDesc Positional Cmdline Parsers ConfigFile Convert Wide SpecConfig
  ConfigFacts SpecConvert SpecWide Streams SpecStreams StreamFacts Masked SpecMask MaskFacts Samples PropStreams.
From Verif Require Import Witness.
Import ListNotations.

Lemma raised_hits {A} m (s : stream A) : hits m s = true <-> raised m s.
Proof. unfold hits, raised. rewrite !orb_true_iff, !andb_true_iff. tauto. Qed.

Lemma fit_iff ds allow : fit_for_files ds allow <-> exists al pr, cf_allowed ds [] = Ok al /\ cf_add_options [] al = Ok pr.
Proof.
  unfold fit_for_files, parse_config_file. split.
  - intros [p H]. apply bind_Ok in H. destruct H as (al & H1 & H). apply bind_Ok in H. destruct H as (pr & H2 & _). eauto.
  - intros (al & pr & -> & H). cbn [bind]. rewrite H. cbn [bind]. eexists. reflexivity.
Qed.

(** C91. Compare the call with the same call on a stream that does not throw, and look at the state in which it leaves the
    stream: if a bit of the mask is set, the stream has thrown; otherwise there is no difference. *)
Theorem C91_mask : forall m s ds allow s' r,
  fit_for_files ds allow -> parse_config_stream s ds allow = (s', r) ->
  (raised m s' -> stream_throws (snd (parse_throwing_stream m s ds allow)))
  /\ (~ raised m s' -> parse_throwing_stream m s ds allow = (s', Done r)).
Proof.
  intros m s ds allow s' r Hf H. apply fit_iff in Hf. pose proof (parse_hits _ m _ _ _ _ _ _ H Hf) as Hh.
  rewrite <- raised_hits. destruct (hits m s').
  - split; [intros _; exact Hh|congruence].
  - split; [discriminate|auto].
Qed.
Print Assumptions C91_mask.

(** C91. If the options cannot be used for config files, the mask does not matter. *)
Theorem C91_unfit : forall m s ds allow, ~ fit_for_files ds allow ->
  parse_throwing_stream m s ds allow = (s, Done (parse_config_file [] ds allow)).
Proof.
  intros m s ds allow H. unfold parse_throwing_stream. rewrite parse_description by (rewrite <- fit_iff; exact H).
  rewrite fit_iff in H. rewrite options_srun. unfold parse_config_file.
  destruct (cf_allowed ds []) as [al|e|u|] eqn:E1; cbn [bind]; auto.
  destruct (cf_add_options [] al) as [pr|e|u|] eqn:E2; cbn [bind]; auto. destruct H. eauto.
Qed.
Print Assumptions C91_unfit.

Lemma stream_run s ds allow s' r : parse_config_stream s ds allow = (s', r) -> fit_for_files ds allow ->
  exists al pr x, srun (fun c => char_eqb c c_nl) (fun l => Ok l) al pr allow (S (S (List.length (st_rest s)))) [] s = (s', x)
    /\ r = let* os := x in Ok (mk_parsed os (Some ds) 0).
Proof.
  intros H Hf. apply fit_iff in Hf. destruct Hf as (al & pr & E1 & E2). unfold parse_config_stream in H. rewrite options_srun in H.
  rewrite E1 in H. cbn [bind] in H. rewrite E2 in H. cbn [bind] in H. cbv zeta in H.
  destruct (srun _ _ al pr allow _ [] s) as [s1 x] eqn:E. cbn [fst snd] in H. injection H as <- <-. exists al, pr, x. auto.
Qed.

(** C91. With [badbit] alone in the mask the end of the file is as before, and a read error is not taken for the end of
    the file any more: *)
Theorem C91_badbit : forall s t ds allow,
  fit_for_files ds allow -> usable s -> delivers c_nl s t ->
  let m := mk_mask false false true in
  (st_broken s = false -> snd (parse_throwing_stream m s ds allow) = Done (parse_config_file t ds allow))
  /\ (st_broken s = true -> (exists p, parse_config_file t ds allow = Ok p) -> stream_throws (snd (parse_throwing_stream m s ds allow)))
  /\ (st_broken s = true -> (forall p, parse_config_file t ds allow <> Ok p) ->
        snd (parse_throwing_stream m s ds allow) = Done (parse_config_file t ds allow)).
Proof.
  intros s t ds allow Hf Hu Hd m. pose proof (stream_text _ _ ds allow Hd) as Ht.
  destruct (parse_config_stream s ds allow) as [s' r] eqn:E. cbn [snd] in Ht. subst r.
  destruct (C91_mask m _ _ _ _ _ Hf E) as [H1 H2]. apply good_usable in Hu.
  assert (Hr : raised m s' <-> st_bad s' = true) by (unfold raised, m; cbn; intuition discriminate).
  destruct (stream_run _ _ _ _ _ E Hf) as (al & pr & x & Ex & Er).
  assert (Hstop : (forall p, parse_config_file t ds allow <> Ok p) -> snd (parse_throwing_stream m s ds allow) = Done (parse_config_file t ds allow)).
  { intros Hn. rewrite H2; [reflexivity|]. rewrite Hr. apply srun_stop_bits in Ex; [|pose proof (measure_le s); lia|].
    - destruct Ex as (_ & -> & _). discriminate.
    - intros os ->. eapply Hn. exact Er. }
  split; [|split]; auto.
  - intros Hb. destruct x as [os|e|u|]; try (apply Hstop; rewrite Er; discriminate).
    rewrite H2; [reflexivity|]. rewrite Hr. apply srun_ok_bits in Ex. destruct Ex as [Ex _]. specialize (Ex Hu). rewrite Hb in Ex.
    destruct Ex as (_ & _ & ->). discriminate.
  - intros Hb [p Hp]. apply H1, Hr. rewrite Hp in Er. destruct x as [os|e|u|]; try discriminate.
    apply srun_ok_bits in Ex. destruct Ex as [Ex _]. specialize (Ex Hu). rewrite Hb in Ex. tauto.
Qed.
Print Assumptions C91_badbit.

(** C91. With [failbit] or [eofbit] in the mask no file can be read to its end: the call never succeeds, and for a correct
    file it always ends with [std::ios_base::failure]. *)
Theorem C91_failbit_refuted : forall m s ds allow,
  on_fail m = true \/ on_eof m = true -> usable s -> st_broken s = false ->
  (forall p, snd (parse_throwing_stream m s ds allow) <> Done (Ok p))
  /\ (forall p, parse_config_file (st_rest s) ds allow = Ok p -> snd (parse_throwing_stream m s ds allow) = Failure).
Proof.
  intros m s ds allow Hm Hu Hb. assert (Hd : delivers c_nl s (st_rest s)) by now constructor.
  pose proof (stream_text _ _ ds allow Hd) as Ht. destruct (parse_config_stream s ds allow) as [s' r] eqn:E. cbn [snd] in Ht. subst r.
  assert (K : forall p, parse_config_file (st_rest s) ds allow = Ok p -> raised m s' /\ fit_for_files ds allow).
  { intros p Hp. assert (Hf : fit_for_files ds allow).
    { apply fit_iff. unfold parse_config_file in Hp. apply bind_Ok in Hp. destruct Hp as (al & Ha & Hp). apply bind_Ok in Hp.
      destruct Hp as (pr & Hp & _). eauto. }
    split; auto. destruct (stream_run _ _ _ _ _ E Hf) as (al & pr & x & Ex & Er). rewrite Hp in Er. destruct x as [os|e|u|]; try discriminate.
    apply srun_ok_bits in Ex. destruct Ex as [Ex _]. apply good_usable in Hu. specialize (Ex Hu). rewrite Hb in Ex.
    destruct Ex as (E1 & E2 & _). unfold raised. tauto. }
  split.
  - intros p Hp. assert (Hf : fit_for_files ds allow).
    { apply fit_iff. unfold parse_throwing_stream, parse_config_masked in Hp.
      destruct (cf_allowed ds []) as [al|e|u|] eqn:E1; cbn [bind] in Hp; try discriminate.
      destruct (cf_add_options [] al) as [pr|e|u|] eqn:E2; cbn [bind] in Hp; try discriminate. eauto. }
    destruct (C91_mask m _ _ _ _ _ Hf E) as [H1 H2]. destruct (hits m s') eqn:Eh.
    + apply raised_hits in Eh. destruct (H1 Eh) as [H|H]; rewrite Hp in H; discriminate.
    + assert (Hn : ~ raised m s') by (rewrite <- raised_hits, Eh; discriminate). rewrite (H2 Hn) in Hp. cbn [snd] in Hp.
      injection Hp as Hp. destruct (K p Hp) as [Hr _]. auto.
  - intros p Hp. destruct (K p Hp) as [Hr Hf]. destruct (C91_mask m _ _ _ _ _ Hf E) as [H1 _]. destruct (H1 Hr) as [->|H]; auto. exfalso.
    revert H. now apply parse_sound.
Qed.
Print Assumptions C91_failbit_refuted.

(** C91. The same for wide streams. *)
Theorem C91_wide : forall m s ds allow s' r,
  fit_for_files ds allow -> wparse_config_stream s ds allow = (s', r) ->
  (raised m s' -> stream_throws (snd (wparse_throwing_stream m s ds allow)))
  /\ (~ raised m s' -> wparse_throwing_stream m s ds allow = (s', Done r)).
Proof.
  intros m s ds allow s' r Hf H. apply fit_iff in Hf. unfold wparse_config_stream in H. cbv zeta in H.
  destruct (parse_config_options (fun x => N.eqb x (N_of_ascii c_nl)) to_utf8 s ds allow) as [s1 r1] eqn:E.
  cbn [fst snd] in H. injection H as <- <-. pose proof (parse_hits _ m _ _ _ _ _ _ E Hf) as Hh.
  rewrite <- raised_hits. unfold wparse_throwing_stream. cbv zeta. destruct (hits m s1).
  - split; [intros _|congruence]. unfold throws, stream_throws in *. cbn [snd]. destruct Hh as [-> | ->]; auto.
  - split; [discriminate|intros _]. now rewrite Hh.
Qed.
Print Assumptions C91_wide.

Lemma fit_dec ds allow : fit_for_files ds allow \/ ~ fit_for_files ds allow.
Proof. unfold fit_for_files. destruct (parse_config_file [] ds allow); [left; eauto| | |]; right; intros [p H]; discriminate. Qed.

Lemma unfit_wide m s ds allow : ~ fit_for_files ds allow ->
  wparse_throwing_stream m s ds allow = let (s', r) := wparse_config_stream s ds allow in (s', Done r).
Proof.
  intros H. unfold wparse_throwing_stream, wparse_config_stream. rewrite parse_description by (rewrite <- fit_iff; exact H).
  destruct (parse_config_options _ _ _ _ _). reflexivity.
Qed.

Lemma unfit_narrow m s ds allow : ~ fit_for_files ds allow ->
  parse_throwing_stream m s ds allow = let (s', r) := parse_config_stream s ds allow in (s', Done r).
Proof. intros H. unfold parse_throwing_stream, parse_config_stream. now rewrite parse_description by (rewrite <- fit_iff; exact H). Qed.

Lemma raised_same m s n : same_stream s n -> raised m s <-> raised m n.
Proof. intros H. unfold same_stream in H. unfold raised. destruct H as (_ & H). decompose [and] H. repeat match goal with E : _ = _ |- _ => rewrite ?E; clear E end. tauto. Qed.

Lemma wide_cases m s n ds allow : same_stream s n ->
  stream_throws (snd (wparse_throwing_stream m s ds allow)) /\ stream_throws (snd (parse_throwing_stream m n ds allow))
  \/ wparse_throwing_stream m s ds allow = (let (s', r) := wparse_config_stream s ds allow in (s', Done r))
     /\ parse_throwing_stream m n ds allow = (let (n', q) := parse_config_stream n ds allow in (n', Done q)).
Proof.
  intros H. destruct (fit_dec ds allow) as [F|F].
  2:{ right. split; [now apply unfit_wide|now apply unfit_narrow]. }
  destruct (wparse_config_stream s ds allow) as [s' r] eqn:E1. destruct (parse_config_stream n ds allow) as [n' q] eqn:E2.
  destruct (C79_wide_stream _ _ _ _ _ _ _ _ H E1 E2) as [K _]. apply (raised_same m) in K.
  destruct (C91_wide m _ _ _ _ _ F E1) as [A1 A2]. destruct (C91_mask m _ _ _ _ _ F E2) as [B1 B2].
  destruct (hits m s') eqn:Eh.
  - apply raised_hits in Eh. left. tauto.
  - right. assert (Hn : ~ raised m s') by (rewrite <- raised_hits, Eh; discriminate). tauto.
Qed.

(** C91. What a wide stream does is what the narrow stream with the same text in UTF-8 does. *)
Theorem C91_wide_narrow : forall m s n ds allow,
  same_stream s n ->
  (stream_throws (snd (wparse_throwing_stream m s ds allow)) <-> stream_throws (snd (parse_throwing_stream m n ds allow)))
  /\ (forall e, snd (wparse_throwing_stream m s ds allow) = Done (Throw e) <-> snd (parse_throwing_stream m n ds allow) = Done (Throw e))
  /\ (forall p, snd (parse_throwing_stream m n ds allow) = Done (Ok p) <->
                exists ws, snd (wparse_throwing_stream m s ds allow) = Done (Ok (mk_wparsed ws p)) /\ Forall2 wide_of ws (pr_options p)).
Proof.
  intros m s n ds allow H. destruct (wide_cases m s n ds allow H) as [[H1 H2]|[H1 H2]].
  - split; [tauto|]. split.
    + intros e. split; intros K; [destruct H1 as [H1|H1]|destruct H2 as [H2|H2]]; congruence.
    + intros p. split; [intros K; destruct H2 as [H2|H2]; congruence|intros (ws & K & _); destruct H1 as [H1|H1]; congruence].
  - destruct (wparse_config_stream s ds allow) as [s' r] eqn:E1. destruct (parse_config_stream n ds allow) as [n' q] eqn:E2.
    rewrite H1, H2. cbn [snd]. destruct (C79_wide_stream _ _ _ _ _ _ _ _ H E1 E2) as [_ K]. split.
    { split; intros [C|C]; discriminate. }
    split.
    + intros e. destruct K as [(p & ws & -> & -> & K)|[(x & -> & ->)|[(u & -> & ->)|[-> ->]]]]; split; congruence.
    + intros p0. destruct K as [(p & ws & -> & -> & K)|[(x & -> & ->)|[(u & -> & ->)|[-> ->]]]]; split; try discriminate;
        try (intros (ws' & C & _); discriminate).
      * intros [= <-]. eauto.
      * intros (ws' & [= _ ->] & _). reflexivity.
Qed.
Print Assumptions C91_wide_narrow.

(** C91. With [failbit] or [eofbit] in the mask no wide file can be read to its end either. *)
Theorem C91_wide_failbit_refuted : forall m s text ds allow,
  on_fail m = true \/ on_eof m = true -> usable s -> st_broken s = false -> utf8_text (st_rest s) text ->
  (forall p, snd (wparse_throwing_stream m s ds allow) <> Done (Ok p))
  /\ (forall p, parse_config_file text ds allow = Ok p -> stream_throws (snd (wparse_throwing_stream m s ds allow))).
Proof.
  intros m s text ds allow Hm Hu Hb Ht.
  set (n := mk_stream text (st_broken s) (st_eof s) (st_fail s) (st_bad s)).
  assert (H : same_stream s n) by (repeat split; exact Ht).
  assert (Hn : usable n) by exact Hu. destruct (C91_failbit_refuted m n ds allow Hm Hn Hb) as [F1 F2].
  destruct (C91_wide_narrow m s n ds allow H) as (K1 & _ & K3). split.
  - intros [ws p] Hp. destruct (wide_cases m s n ds allow H) as [[[C|C] _]|[E1 E2]]; try congruence.
    destruct (wparse_config_stream s ds allow) as [s' r] eqn:G1. destruct (parse_config_stream n ds allow) as [n' q] eqn:G2.
    rewrite E1 in Hp. cbn [snd] in Hp. injection Hp as ->.
    destruct (C79_wide_stream _ _ _ _ _ _ _ _ H G1 G2) as [_ [(p' & ws' & -> & _)|[(x & _ & C)|[(u & _ & C)|[_ C]]]]]; try discriminate.
    apply (F1 p'). now rewrite E2.
  - intros p Hp. apply K1. left. now apply (F2 p).
Qed.
Print Assumptions C91_wide_failbit_refuted.

(** C91. After an exception of the stream a bit of the mask is set, what has not been read is still there, and the stream is as reliable
    as before.  An exception of the stream buffer is thrown again only if there was a read error and [badbit] is in the mask. *)
Theorem C91_after : forall m s ds allow s' x,
  parse_throwing_stream m s ds allow = (s', x) -> stream_throws x ->
  raised m s' /\ (exists read, st_rest s = read ++ st_rest s') /\ st_broken s' = st_broken s
  /\ (x = Rethrown -> on_bad m = true /\ st_broken s = true /\ s' = mk_stream [] true false false true).
Proof.
  intros m s ds allow s' x H Hx. apply parse_after in H. destruct H as (B & R & T & C).
  split; [apply raised_hits; apply T; exact Hx|]. auto.
Qed.
Print Assumptions C91_after.

Theorem C91_after_wide : forall m s ds allow s' x,
  wparse_throwing_stream m s ds allow = (s', x) -> stream_throws x ->
  raised m s' /\ (exists read, st_rest s = read ++ st_rest s') /\ st_broken s' = st_broken s
  /\ (x = Rethrown -> on_bad m = true /\ st_broken s = true /\ s' = mk_stream [] true false false true).
Proof.
  intros m s ds allow s' x H Hx. unfold wparse_throwing_stream in H.
  destruct (parse_config_masked (fun x0 => N.eqb x0 (N_of_ascii c_nl)) m to_utf8 s ds allow) as [s1 y] eqn:E. cbn [fst snd] in H.
  injection H as <- <-. apply parse_after in E. destruct E as (B & R & T & C).
  assert (Hy : stream_throws y) by (destruct y; [left; reflexivity|right; reflexivity|destruct Hx as [D|D]; discriminate D]).
  split; [apply raised_hits; apply T; exact Hy|]. split; [assumption|]. split; [assumption|]. intros D. apply C. destruct y; congruence.
Qed.
Print Assumptions C91_after_wide.

Lemma done_ok_ex {A} (x : io (outcome A)) : match x with Done (Ok _) => true | _ => false end = true -> exists p, x = Done (Ok p).
Proof. destruct x as [| |[]]; try discriminate; eauto. Qed.
Lemma done_throw_ex {A} (x : io (outcome A)) : match x with Done (Throw _) => true | _ => false end = true -> exists e, x = Done (Throw e).
Proof. destruct x as [| |[]]; try discriminate; eauto. Qed.

Example C91_ex :
  let text := $"output = a" ++ [c_nl] in
  let broken := mk_stream ($"output = a" ++ [c_nl] ++ $"number") true false false false in
  fit_for_files stream_ds false /\ usable broken /\ delivers c_nl broken text
  /\ (exists p, parse_config_file text stream_ds false = Ok p)
  /\ snd (parse_throwing_stream (mk_mask false false true) broken stream_ds false) = Rethrown
  /\ (exists p, snd (parse_throwing_stream (mk_mask true true false) broken stream_ds false) = Done (Ok p))
  /\ snd (parse_throwing_stream (mk_mask false true false) (st_open text false) stream_ds false) = Failure
  /\ snd (parse_throwing_stream (mk_mask true false false) (st_open text false) stream_ds false) = Failure
  /\ (exists p, snd (parse_throwing_stream (mk_mask false false true) (st_open text false) stream_ds false) = Done (Ok p))
  /\ (exists e, snd (parse_throwing_stream (mk_mask true true true) (st_open ($"number" ++ [c_nl] ++ text) false) stream_ds false) = Done (Throw e)).
Proof.
  intros text broken. split; [unfold fit_for_files; compute_ex|]. split; [repeat split|].
  split; [apply C79_ex|]. split; [compute_ex|]. split; [vm_compute; reflexivity|].
  split; [apply done_ok_ex; vm_compute; reflexivity|]. split; [vm_compute; reflexivity|]. split; [vm_compute; reflexivity|].
  split; [apply done_ok_ex; vm_compute; reflexivity|]. apply done_throw_ex. vm_compute. reflexivity.
Qed.

(** Options that cannot be used for config files: the hypothesis of [C91_unfit]. *)
Example C91_ex_unfit : ~ fit_for_files [o_output; mk_od $"-q" [] [] (od_sem o_help)] false.
Proof. intros [p H]. vm_compute in H. discriminate. Qed.

(** Wide streams with an exception mask that is not hit, and with one that is. *)
Example C91_ex_wide :
  let wide := List.map N_of_ascii in
  let tail := $"output = a" ++ [c_nl] ++ $"junk" ++ [c_nl] ++ $"number = 1" in
  let n := mk_stream (map ascii_of_N [35; 226; 130; 172]%N ++ [c_nl] ++ tail) true false false false in
  let s := mk_stream ([35; 8364]%N ++ wide ([c_nl] ++ tail)) true false false false in
  let good := st_open ([35; 8364]%N ++ wide ([c_nl] ++ $"output = a" ++ [c_nl])) false in
  same_stream s n /\ fit_for_files stream_ds false
  /\ (exists e, snd (wparse_throwing_stream (mk_mask true true true) s stream_ds false) = Done (Throw e))
  /\ (exists p, snd (wparse_throwing_stream (mk_mask false false true) good stream_ds false) = Done (Ok p))
  /\ snd (wparse_throwing_stream (mk_mask false true false) good stream_ds false) = Failure.
Proof.
  cbv zeta. split; [apply C79_ex_wide_stream|]. split; [unfold fit_for_files; compute_ex|].
  split; [apply done_throw_ex; vm_compute; reflexivity|]. split; [apply done_ok_ex; vm_compute; reflexivity|vm_compute; reflexivity].
Qed.
