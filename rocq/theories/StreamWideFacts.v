(** A wide stream is read like the narrow stream with the same text. *)

From Coq Require Import List Ascii String NArith ZArith Bool Arith Lia.
From Verif Require Import Base Errors Spec BaseFacts Values OptDesc Positional Cmdline SpecCmdline Parsers ConfigFile Convert SpecConvert ConvertFacts
  Wide SpecConfig ConfigFacts SpecWide WideFacts WideFacts2 Streams SpecStreams StreamFacts.
Import ListNotations.

Notation wnl := (fun x : N => N.eqb x (N_of_ascii c_nl)).
Notation nnl := (fun x : ascii => char_eqb x c_nl).

Lemma break_high c s : Forall (fun x => 128 <= N_of_ascii x)%N c ->
  break_line nnl (c ++ s) = match break_line nnl s with Some (l, r) => Some (c ++ l, r) | None => None end.
Proof.
  induction 1 as [|x c Hx _ IH]; cbn [app break_line]; [now destruct (break_line nnl s) as [[l r]|]|].
  destruct (char_eqb_spec x c_nl) as [->|Hn]; [exfalso; now apply Hx|]. rewrite IH. now destruct (break_line nnl s) as [[l r]|].
Qed.

Lemma break_wide ws s : utf8_text ws s ->
  match break_line wnl ws, break_line nnl s with
  | Some (l, r), Some (l', r') => utf8_text l l' /\ utf8_text r r'
  | None, None => True
  | _, _ => False
  end.
Proof.
  induction 1 as [|w c ws s Hw Hs IH]; [exact I|]. cbn [break_line].
  pose proof Hw as Hu. apply utf8_bytes in Hu. destruct Hu as [(x & -> & Ew & Hlt)|[Hh Hge]].
  - cbn [app break_line]. destruct (char_eqb_spec x c_nl) as [->|Hn].
    + rewrite <- Ew. cbn. split; [constructor|exact Hs].
    + destruct (N.eqb_spec w (N_of_ascii c_nl)) as [Ex|Ex].
      { exfalso. rewrite Ex in Ew. apply (f_equal ascii_of_N) in Ew. rewrite !ascii_N_embedding in Ew. now subst x. }
      destruct (break_line wnl ws) as [[l r]|], (break_line nnl s) as [[l' r']|]; auto.
      destruct IH as [H1 H2]. split; [|exact H2]. change (x :: l') with ([x] ++ l'). now constructor.
  - rewrite break_high by exact Hh. destruct (N.eqb_spec w (N_of_ascii c_nl)) as [->|Ex]; [destruct Hge; reflexivity|].
    destruct (break_line wnl ws) as [[l r]|], (break_line nnl s) as [[l' r']|]; auto.
    destruct IH as [H1 H2]. split; [|exact H2]. now constructor.
Qed.

Lemma getline_wide s n : same_stream s n ->
  same_stream (snd (std_getline wnl s)) (snd (std_getline nnl n)) /\
  match fst (std_getline wnl s), fst (std_getline nnl n) with
  | Some l, Some l' => utf8_text l l'
  | None, None => True
  | _, _ => False
  end.
Proof.
  intros (Ht & Eb & E1 & E2 & E3). unfold std_getline, st_good. rewrite Eb, E1, E2, E3.
  destruct (negb _); cbn [fst snd]; [repeat split; auto|].
  pose proof (break_wide _ _ Ht) as Hb. pose proof (utf8_text_nil _ _ Ht) as Hn.
  destruct (break_line wnl (st_rest s)) as [[l r]|], (break_line nnl (st_rest n)) as [[l' r']|]; try contradiction; cbn [fst snd].
  - destruct Hb as [H1 H2]. repeat split; auto.
  - destruct (st_broken n); cbn [fst snd].
    + repeat split; auto; [constructor|]. cbn [st_fail].
      destruct (st_rest s), (st_rest n); try reflexivity; exfalso; destruct Hn as [Ha Hc]; [specialize (Ha eq_refl)|specialize (Hc eq_refl)]; discriminate.
    + destruct (st_rest s), (st_rest n); cbn [fst snd]; try (exfalso; destruct Hn as [Ha Hc]; first [now specialize (Ha eq_refl)|now specialize (Hc eq_refl)]).
      * repeat split; auto.
      * split; [|exact Ht]. repeat split; auto. constructor.
Qed.

Lemma srun_wide al pr allow f : forall s n p g, same_stream s n -> measure s < f -> measure n < g ->
  same_stream (fst (srun wnl to_utf8 al pr allow f p s)) (fst (srun nnl (fun l => Ok l) al pr allow g p n)) /\
  snd (srun wnl to_utf8 al pr allow f p s) = snd (srun nnl (fun l => Ok l) al pr allow g p n).
Proof.
  induction f as [|f IH]; intros s n p g Hs Hf Hg; [lia|]. destruct g as [|g]; [lia|]. cbn [srun].
  destruct (getline_wide s n Hs) as [Hs' Hl].
  destruct (std_getline wnl s) as [[l|] s'] eqn:E, (std_getline nnl n) as [[l'|] n'] eqn:E'; cbn [fst snd] in *; try contradiction; auto.
  apply getline_measure in E. apply getline_measure in E'.
  unfold line_of. rewrite (to_utf8_text _ _ Hl). cbn [bind]. destruct (cf_line al pr allow p l') as [[p'|nm v b]|e|u|]; cbn [fst snd]; auto.
  - apply IH; auto; lia.
  - specialize (IH s' n' p g Hs' ltac:(lia) ltac:(lia)).
    destruct (srun wnl to_utf8 al pr allow f p s') as [s2 r2], (srun nnl (fun l => Ok l) al pr allow g p n') as [n2 q2].
    cbn [fst snd] in IH. destruct IH as [H1 ->]. destruct q2; cbn [fst snd]; auto.
Qed.

Lemma options_wide s n ds allow : same_stream s n ->
  same_stream (fst (parse_config_options wnl to_utf8 s ds allow)) (fst (parse_config_stream n ds allow)) /\
  snd (parse_config_options wnl to_utf8 s ds allow) = snd (parse_config_stream n ds allow).
Proof.
  intros Hs. unfold parse_config_stream. rewrite !options_srun.
  destruct (let* al := cf_allowed ds [] in _) as [[al pr]|e|u|]; cbn [fst snd]; auto. cbv zeta.
  destruct (srun_wide al pr allow (S (S (List.length (st_rest s)))) s n [] (S (S (List.length (st_rest n)))) Hs) as [H1 H2];
    [pose proof (measure_le s); lia|pose proof (measure_le n); lia|]. cbn [fst snd]. now rewrite H2.
Qed.

Lemma delivers_valid n t : delivers c_nl n t -> U (st_rest n) -> U t.
Proof.
  intros [H1 H2|t' part H1 H2 E Hw Hp|H]; intros HU; [exact HU| |exact U_nil].
  destruct Hw as [->|(t0 & ->)]; [exact U_nil|]. rewrite E, <- app_assoc in HU. cbn [app] in HU.
  destruct (U_split _ _ _ HU ltac:(reflexivity)) as [Ha _]. apply U_app; [exact Ha|]. apply U_char. reflexivity.
Qed.

Lemma stream_wide s n t ds allow : same_stream s n -> delivers c_nl n t ->
  same_stream (fst (wparse_config_stream s ds allow)) (fst (parse_config_stream n ds allow)) /\
  ((exists p ws, snd (parse_config_stream n ds allow) = Ok p /\ snd (wparse_config_stream s ds allow) = Ok (mk_wparsed ws p)
      /\ Forall2 wide_of ws (pr_options p))
   \/ (exists e, snd (parse_config_stream n ds allow) = Throw e /\ snd (wparse_config_stream s ds allow) = Throw e)
   \/ (exists u, snd (parse_config_stream n ds allow) = Undef u /\ snd (wparse_config_stream s ds allow) = Undef u)
   \/ (snd (parse_config_stream n ds allow) = NoFuel /\ snd (wparse_config_stream s ds allow) = NoFuel)).
Proof.
  intros Hs Hd. destruct (options_wide s n ds allow Hs) as [H1 H2]. unfold wparse_config_stream. cbv zeta. cbn [fst snd].
  split; [exact H1|]. rewrite H2. destruct (snd (parse_config_stream n ds allow)) as [p|e|u|] eqn:E; cbn [bind]; eauto 6.
  left. exists p. rewrite (stream_text n t ds allow Hd) in E.
  destruct (delivers_valid n t Hd ltac:(eexists; apply (proj1 Hs))) as [wt Hwt].
  destruct (wide_config_lemma wt t ds allow Hwt) as [(p' & ws & Hp & Hw & Hall)|[(x & Hx & _)|[(x & Hx & _)|[Hx _]]]]; try congruence.
  assert (p' = p) by congruence. subst p'. exists ws. split; [reflexivity|]. split; [|exact Hall].
  unfold wparse_config_file in Hw. do 4 (apply bind_Ok in Hw; destruct Hw as (? & _ & Hw)).
  unfold wparsed in Hw |- *. apply bind_Ok in Hw. destruct Hw as (ws' & Hm & [= <- <-]). rewrite Hm. reflexivity.
Qed.
