(** Sticky short options. *)

From Coq Require Import List Ascii String NArith ZArith Bool Arith Lia.
From Verif Require Import Base Errors Spec BaseFacts Values OptDesc SpecLookup LookupFacts
  KeyFacts Positional Cmdline SpecCmdline CmdlineFacts RunFacts ParseFacts.
Import ListNotations.

Lemma flag_found c a :
  case_sensitive c -> is_flag c a ->
  exists d, find_nothrow (cl_desc c) [c_dash; a] false false (has (cl_style c) short_case_insensitive)
            = Ok (Some d)
    /\ lookup c [c_dash; a] = Ok (Some d) /\ vs_max (od_sem d) = 0%Z /\ (vs_min (od_sem d) <= 0)%Z.
Proof.
  intros [Hl Hs] (d & Hin & Hsh & Hmax & Hmin & Hlk). exists d. repeat split; auto.
  unfold lookup in Hlk. rewrite Hl, Hs in Hlk. rewrite Hs.
  rewrite find_filter in Hlk by apply foldable_sensitive.
  rewrite find_filter by apply foldable_sensitive.
  assert (Hf : In d (fulls_of (cl_desc c) [c_dash; a] false false)).
  { unfold fulls_of. apply filter_In. split; auto. apply full_b_spec. right. apply same_name_eq. auto. }
  unfold find_result in *. destruct (fulls_of (cl_desc c) [c_dash; a] false false) as [|f [|]].
  - destruct Hf.
  - destruct Hf as [->|[]]. reflexivity.
  - discriminate.
Qed.

(** Finishing a flag. *)
Lemma finish_flag c ps n orig other d :
  n <> [] -> lookup c n = Ok (Some d) -> (vs_min (od_sem d) <= 0)%Z ->
  finish_option c ps (raw n [] orig) other = Ok (raw (od_key d n) [] orig, other).
Proof.
  intros Hn Hl Hmin. unfold finish_option, raw. cbn [po_key po_value po_orig po_pos po_unreg po_ci].
  apply is_empty_false in Hn. rewrite Hn, Hl. cbn [with_context bind List.length is_empty negb andb].
  destruct (Z.leb_spec (vs_min (od_sem d)) (Z.of_nat 0 + Z.of_nat (List.length other))); [|lia].
  destruct (Z.leb_spec (Z.of_nat 0) (vs_min (od_sem d))).
  - replace (vs_min (od_sem d) - Z.of_nat 0)%Z with 0%Z by lia. apply grab_zero.
  - apply grab_zero.
Qed.

(** The options of a group, and of the separate tokens. *)
Definition group_opts (c : cmdline) (fl : list char) (origs : char -> list str) : list popt -> Prop :=
  Forall2 (fun a o => exists d, lookup c [c_dash; a] = Ok (Some d)
                       /\ o = raw (od_key d [c_dash; a]) [] (origs a)) fl.

Lemma short_loop_flag c tok name a adj acc d :
  find_nothrow (cl_desc c) name false false (has (cl_style c) short_case_insensitive) = Ok (Some d) ->
  has (cl_style c) allow_sticky = true -> vs_max (od_sem d) = 0%Z ->
  short_loop c tok name (a :: adj) acc = short_loop c tok [c_dash; a] adj (acc ++ [raw name [] []]).
Proof. intros H Hs Hm. cbn [short_loop]. rewrite H. cbn [with_context bind]. rewrite Hs, Hm. reflexivity. Qed.

Lemma short_loop_group c tok fl x acc a0 :
  case_sensitive c -> has (cl_style c) allow_sticky = true -> Forall (is_flag c) (a0 :: fl) ->
  short_loop c tok [c_dash; a0] (fl ++ [x]) acc
  = short_loop c tok [c_dash; x] [] (acc ++ map (fun a => raw [c_dash; a] [] []) (a0 :: fl)).
Proof.
  intros Hc Hst. revert a0 acc; induction fl as [|b fl IH]; intros a0 acc H.
  - inversion H as [|? ? H1 _]; subst. destruct (flag_found c a0 Hc H1) as (d & E & _ & Em & _).
    cbn [app]. rewrite (short_loop_flag _ _ _ _ _ _ _ E Hst Em). reflexivity.
  - inversion H as [|? ? H1 H2]; subst. destruct (flag_found c a0 Hc H1) as (d & E & _ & Em & _).
    cbn [app]. rewrite (short_loop_flag _ _ _ _ _ _ _ E Hst Em), IH by auto.
    f_equal. now rewrite <- app_assoc.
Qed.

Lemma finish_group c ps fl o rest :
  case_sensitive c -> Forall (is_flag c) fl ->
  exists fs, group_opts c fl (fun _ => []) fs
    /\ finish_all c ps (map (fun a => raw [c_dash; a] [] []) fl ++ [o]) rest
       = let* r := finish_option c ps o rest in Ok (fs ++ [fst r], snd r).
Proof.
  intros Hc H. induction H as [|a fl Ha Hfl (fs & Hg & E)].
  - exists []. split; [constructor|]. cbn [map app finish_all]. reflexivity.
  - destruct (flag_found c a Hc Ha) as (d & _ & Hl & _ & Hmin).
    exists (raw (od_key d [c_dash; a]) [] [] :: fs). split.
    + constructor; auto. exists d; auto.
    + cbn [map app]. set (tl := map (fun a => raw [c_dash; a] [] []) fl ++ [o]) in *.
      assert (Etl : finish_all c ps (raw [c_dash; a] [] [] :: tl) rest
         = let* r := finish_option c ps (raw [c_dash; a] [] []) [] in
           let* rs := finish_all c ps tl rest in Ok (fst r :: fst rs, snd rs)).
      { unfold tl. destruct fl; reflexivity. }
      rewrite Etl, (finish_flag c ps [c_dash; a] [] [] d); auto; [|discriminate].
      cbn [bind fst]. rewrite E. destruct (finish_option c ps o rest) as [[f r]| | |]; reflexivity.
Qed.

Lemma flag_step c a rest :
  plain c -> case_sensitive c -> has (cl_style c) allow_short = true ->
  has (cl_style c) allow_dash_for_short = true -> has (cl_style c) allow_long_disguise = false ->
  a <> c_dash -> is_flag c a ->
  exists o, group_opts c [a] (fun a => [[c_dash; a]]) [o]
    /\ main_step c ([c_dash; a] :: rest) = Ok ([o], rest).
Proof.
  intros Hp Hc Hs Hd Hg Ha Hf. destruct (flag_found c a Hc Hf) as (d & E & Hl & Hmax & Hmin).
  exists (raw (od_key d [c_dash; a]) [] [[c_dash; a]]). split.
  { constructor; [|constructor]. exists d; auto. }
  destruct (parsers_short c Hp Hs Hd Hg) as (before & after & Es & Hb).
  eapply main_step_hit with (os := [raw [c_dash; a] [] [[c_dash; a]]]) (rest1 := rest); [exact Es| | | |auto].
  - intros q Hq. rewrite (Hb q Hq). apply long_skips. intros n En. injection En as -> _. congruence.
  - unfold parse_short_option. cbn [at_index nth_error bind].
    change (char_eqb c_dash c_dash) with true. destruct (char_eqb_spec a c_dash); [congruence|].
    cbn [andb negb short_loop]. rewrite E. reflexivity.
  - cbn [finish_all]. rewrite (finish_flag c _ [c_dash; a] _ _ d); auto. discriminate.
Qed.

Lemma flags_loop c fl g suf :
  plain c -> case_sensitive c -> has (cl_style c) allow_short = true ->
  has (cl_style c) allow_dash_for_short = true -> has (cl_style c) allow_long_disguise = false ->
  Forall (fun a => a <> c_dash) fl -> Forall (is_flag c) fl ->
  exists fs, group_opts c fl (fun a => [[c_dash; a]]) fs
    /\ main_loop (List.length fl + g) c (map (fun a => [c_dash; a]) fl ++ suf)
       = let* r := main_loop g c suf in Ok (fs ++ r).
Proof.
  intros Hp Hc Hs Hd Hg Hn H. induction H as [|a fl Ha Hfl IH].
  - exists []. split; [constructor|]. simpl. destruct (main_loop g c suf); reflexivity.
  - inversion Hn as [|? ? Hn1 Hn2]; subst. destruct (IH Hn2) as (fs & Hgo & E).
    destruct (flag_step c a (map (fun a => [c_dash; a]) fl ++ suf) Hp Hc Hs Hd Hg Hn1 Ha)
      as (o & Ho & Es).
    exists (o :: fs). split.
    + inversion Ho; subst. constructor; auto.
    + cbn [List.length Nat.add map app main_loop]. rewrite Es. cbn [bind fst snd]. rewrite E.
      destruct (main_loop g c suf); reflexivity.
Qed.

Lemma Forall2_len A B (R : A -> B -> Prop) l l' : Forall2 R l l' -> List.length l = List.length l'.
Proof. induction 1; simpl; auto. Qed.

(** ** The later passes do not look at original tokens *)

Definition eqv (a b : popt) : Prop :=
  same_option a b /\ (po_key a <> [] \/ po_value a = [] \/ List.length (po_orig a) = List.length (po_orig b)).

Lemma eqv_refl a : eqv a a.
Proof. repeat split; auto. Qed.

Lemma grab_positional_eqv n a b fa fb ra la :
  same_option a b -> Forall2 eqv fa fb -> grab_positional n a fa = Ok (ra, la) ->
  exists rb lb, grab_positional n b fb = Ok (rb, lb) /\ same_option ra rb /\ Forall2 eqv la lb.
Proof.
  intros Hab Hf. revert n a b Hab; induction Hf as [|x y fa fb Hxy Hf IH]; intros n a b Hab H;
    cbn [grab_positional] in *.
  - injection H as <- <-. eauto.
  - destruct Hxy as [Hxy Hlen]. pose proof Hxy as (Hk & Hp & Hv & _ & _).
    rewrite <- Hk, <- Hp, <- Hv.
    destruct (Z.eqb n 0); [injection H as <- <-; exists b, (y :: fb); repeat split; auto; apply Hab || (constructor; auto; split; auto)|].
    destruct (is_empty (po_key x)) eqn:Ek; cbn [negb] in *;
      [|injection H as <- <-; exists b, (y :: fb); repeat split; auto; apply Hab || (constructor; auto; split; auto)].
    destruct (Z.eqb (po_pos x) _); [injection H as <- <-; exists b, (y :: fb); repeat split; auto; apply Hab || (constructor; auto; split; auto)|].
    destruct (po_value x) as [|v [|]], (po_orig x) as [|t [|]] eqn:Eo; try discriminate.
    destruct Hlen as [Hlen|[Hlen|Hlen]]; [destruct (po_key x); [congruence|discriminate]|discriminate|].
    simpl in Hlen.
    destruct (po_orig y) as [|t' [|]]; try discriminate.
    destruct (Z.eqb n INT_MIN); [discriminate|].
    eapply IH; [|exact H]. destruct Hab as (A1 & A2 & A3 & A4 & A5).
    repeat split; simpl; auto. now rewrite A3.
Qed.

Lemma merge_eqv c f as_ bs ra :
  Forall2 eqv as_ bs -> merge_pass f c as_ = Ok ra ->
  exists rb, merge_pass f c bs = Ok rb /\ Forall2 same_option ra rb.
Proof.
  revert as_ bs ra; induction f as [|f IH]; intros as_ bs ra H E.
  - inversion H; subst; cbn [merge_pass] in *; [|discriminate]. injection E as <-. eauto.
  - inversion H as [|a b fa fb Hab Hf]; subst; cbn [merge_pass] in *; [injection E as <-; eauto|].
    pose proof (proj1 Hab) as (Hk & Hp & Hv & _ & _).
    assert (Hone : forall a' b' fa' fb', same_option a' b' -> Forall2 eqv fa' fb' ->
              (let* r := merge_pass f c fa' in Ok (a' :: r)) = Ok ra ->
              exists rb, (let* r := merge_pass f c fb' in Ok (b' :: r)) = Ok rb
                         /\ Forall2 same_option ra rb).
    { intros a' b' fa' fb' Hab' Hf' E'. apply bind_Ok in E'. destruct E' as (r & E' & [= <-]).
      destruct (IH _ _ _ Hf' E') as (rb & -> & Hr). exists (b' :: rb). split; auto. }
    rewrite <- Hk, <- Hv. destruct (is_empty (po_key a)).
    { eapply Hone; eauto. apply Hab. }
    apply bind_Ok in E. destruct E as (xd & El & E).
    assert (El' : lookup c (po_key a) = Ok xd).
    { destruct (lookup c (po_key a)) as [|e| |]; auto. destruct (has_option_name _); [|discriminate].
      apply bind_Ok in El. destruct El as (t & _ & El). discriminate. }
    rewrite El'. cbn [bind]. destruct xd as [d|]; [|eapply Hone; eauto; apply Hab].
    destruct (_ && _); [|eapply Hone; eauto; apply Hab].
    apply bind_Ok in E. destruct E as ((g & l) & Eg & E). cbn [fst snd] in E.
    destruct (grab_positional_eqv _ _ _ _ _ _ _ (proj1 Hab) Hf Eg) as (rb & lb & -> & Hr & Hlb).
    cbn [bind fst snd]. eapply Hone; eauto.
Qed.

Lemma number_same k a b :
  Forall2 same_option a b -> Forall2 same_option (number_positionals k a) (number_positionals k b).
Proof.
  intros H. revert k; induction H as [|x y a b Hxy H IH]; intros k; [constructor|].
  cbn [number_positionals]. pose proof Hxy as (Hk & Hp & Hv & Hu & Hc). rewrite <- Hk.
  destruct (is_empty (po_key x)); constructor; auto. repeat split; simpl; auto.
Qed.

Lemma name_same p k a b ra :
  Forall2 same_option a b -> name_positionals p k a = Ok ra ->
  exists rb, name_positionals p k b = Ok rb /\ Forall2 same_option ra rb.
Proof.
  intros H. revert k ra; induction H as [|x y a b Hxy H IH]; intros k ra E; cbn [name_positionals] in *.
  - injection E as <-. eauto.
  - pose proof Hxy as (Hk & Hp & Hv & Hu & Hc). rewrite <- Hp.
    destruct (Z.eqb (po_pos x) (-1)).
    + apply bind_Ok in E. destruct E as (r & E & [= <-]). destruct (IH _ _ E) as (rb & -> & Hr).
      cbn [bind]. eauto.
    + destruct (Z.leb _ _); [discriminate|]. apply bind_Ok in E. destruct E as (n & -> & E).
      apply bind_Ok in E. destruct E as (r & E & [= <-]). destruct (IH _ _ E) as (rb & -> & Hr).
      cbn [bind]. eexists. split; [reflexivity|]. constructor; auto. repeat split; simpl; auto.
Qed.

Lemma case_same c a b :
  Forall2 same_option a b -> Forall2 same_option (map (set_case_flag c) a) (map (set_case_flag c) b).
Proof.
  induction 1 as [|x y a b (Hk & Hp & Hv & Hu & Hc) H IH]; simpl; constructor; auto.
  unfold set_case_flag. repeat split; simpl; auto. now rewrite Hk.
Qed.

Lemma passes_same c r1 r1' res :
  Forall2 eqv r1 r1' ->
  (let* r2 := merge_pass (List.length r1) c r1 in
   let r3 := number_positionals 0 r2 in
   let* r4 := match cl_positional c with Some p => name_positionals p 0 r3 | None => Ok r3 end in
   Ok (map (set_case_flag c) r4)) = Ok res ->
  exists res',
  (let* r2 := merge_pass (List.length r1') c r1' in
   let r3 := number_positionals 0 r2 in
   let* r4 := match cl_positional c with Some p => name_positionals p 0 r3 | None => Ok r3 end in
   Ok (map (set_case_flag c) r4)) = Ok res' /\ Forall2 same_option res res'.
Proof.
  intros H E. apply bind_Ok in E. destruct E as (r2 & E2 & E). cbv zeta in E.
  destruct (merge_eqv _ _ _ _ _ H E2) as (r2' & E2' & H2).
  assert (Hlen : List.length r1 = List.length r1') by (eapply Forall2_len; eauto).
  rewrite <- Hlen, E2'. cbn [bind]. cbv zeta.
  pose proof (number_same 0 _ _ H2) as H3.
  apply bind_Ok in E. destruct E as (r4 & E4 & [= <-]).
  destruct (cl_positional c) as [p|].
  - destruct (name_same _ _ _ _ _ H3 E4) as (r4' & -> & H4). cbn [bind]. eexists; split; [reflexivity|].
    now apply case_same.
  - injection E4 as <-. cbn [bind]. eexists; split; [reflexivity|]. now apply case_same.
Qed.

Lemma group_eqv c fl o1 o2 a b :
  group_opts c fl o1 a -> group_opts c fl o2 b -> Forall2 eqv a b.
Proof.
  intros Ha. revert b; induction Ha as [|x o fl a (d & Hl & ->) Ha IH]; intros b Hb;
    inversion Hb as [|? o' ? b' (d' & Hl' & ->) Hb']; subst; constructor; auto.
  rewrite Hl in Hl'. injection Hl' as <-. repeat split; simpl; auto.
Qed.

(** The original token only matters for error messages. *)
Lemma grab_tokens_exc c ps key t t' n o o' other f a :
  grab_tokens c ps key t n o other = Ok (f, a) ->
  exists ts, f = take_tokens ts o /\ grab_tokens c ps key t' n o' other = Ok (take_tokens ts o', a).
Proof.
  revert t t' n o o'; induction other as [|tok rest IH]; intros t t' n o o' H; cbn [grab_tokens] in *.
  - injection H as <- <-. exists []. rewrite !take_tokens_nil. auto.
  - destruct (Z.eqb n 0).
    + injection H as <- <-. exists []. rewrite !take_tokens_nil. auto.
    + apply bind_Ok in H. destruct H as (fo & Hf & H). apply with_context_Ok in Hf. rewrite Hf.
      change (with_context key t' (cl_prefix c) (Ok fo)) with (Ok fo).
      apply bind_Ok in H. destruct H as (t2 & Ht & H).
      assert (Ht' : exists t2', forall k : str -> outcome (popt * list str),
         (let* x := Ok fo in
          let* tok_exc' :=
            if (x : bool) then
              let* od := with_context key tok (cl_prefix c) (lookup c tok) in
              match od with
              | Some _ => with_context key tok (cl_prefix c)
                            (Throw (mk_cmdline_syntax missing_parameter [] [] 0))
              | None => Ok tok
              end
            else Ok t' in k tok_exc') = k t2').
      { cbn beta iota delta [bind]. destruct fo; [exists t2|exists t'; auto]. intros k.
        change (bind (let* od := with_context key tok (cl_prefix c) (lookup c tok) in
              match od with
              | Some _ => with_context key tok (cl_prefix c)
                            (Throw (mk_cmdline_syntax missing_parameter [] [] 0))
              | None => Ok tok
              end) k = k t2). rewrite Ht. reflexivity. }
      destruct Ht' as [t2' Ht']. rewrite Ht'.
      destruct (IH t2 t2' (n - 1)%Z _ (take_tokens [tok] o') H) as (ts & -> & E).
      exists (tok :: ts). split.
      * change (tok :: ts) with ([tok] ++ ts). now rewrite <- take_tokens_app.
      * unfold take_tokens at 1 in E. rewrite E. change (tok :: ts) with ([tok] ++ ts).
        now rewrite <- take_tokens_app.
Qed.

Lemma finish_option_orig c ps n v g g' other f a :
  n <> [] -> finish_option c ps (raw n v g) other = Ok (f, a) ->
  exists f', finish_option c ps (raw n v g') other = Ok (f', a)
    /\ same_option f f'
    /\ (List.length g = List.length g' -> List.length (po_orig f) = List.length (po_orig f')).
Proof.
  intros Hn. unfold finish_option, raw. cbn [po_key po_value po_orig po_pos po_unreg po_ci].
  apply is_empty_false in Hn. rewrite Hn. intros H. apply bind_Ok in H. destruct H as (xd & Hl & H).
  apply with_context_Ok in Hl. rewrite Hl. cbn [with_context bind]. destruct xd as [d|].
  - destruct (Z.leb _ _); [|discriminate]. destruct (_ && _); [discriminate|].
    match type of H with grab_tokens _ _ ?k _ ?m ?o _ = _ =>
      destruct (grab_tokens_exc c ps k _ (match g' with t :: _ => t | [] => n end) m o
        (mk_popt (po_key o) (po_pos o) (po_value o) g' (po_unreg o) (po_ci o)) _ _ _ H) as (ts & -> & E)
    end.
    cbn [po_key po_pos po_value po_unreg po_ci] in E. rewrite E.
    eexists. split; [reflexivity|]. split; [repeat split; reflexivity|].
    simpl. rewrite !app_length. lia.
  - destruct (cl_allow_unregistered c); [|discriminate]. injection H as <- <-.
    eexists. split; [reflexivity|]. split; [repeat split; reflexivity|]. auto.
Qed.

Lemma short_loop_last c tok x acc :
  short_loop c tok [c_dash; x] [] acc
  = let* _ := with_context [c_dash; x] [c_dash; x] (cl_prefix c)
                (find_nothrow (cl_desc c) [c_dash; x] false false
                   (has (cl_style c) short_case_insensitive)) in
    Ok (acc ++ [raw [c_dash; x] [] [tok]]).
Proof. cbn [short_loop]. destruct (with_context _ _ _ _) as [[d|]| | |]; reflexivity. Qed.

(** One iteration on a group. *)
Lemma group_step c fl x rest :
  plain c -> case_sensitive c -> has (cl_style c) allow_short = true ->
  has (cl_style c) allow_dash_for_short = true -> has (cl_style c) allow_long_disguise = false ->
  has (cl_style c) allow_sticky = true ->
  Forall (fun a => a <> c_dash) (fl ++ [x]) -> Forall (is_flag c) fl ->
  exists fs, group_opts c fl (fun _ => []) fs /\
  main_step c ((c_dash :: fl ++ [x]) :: rest)
  = let* _ := with_context [c_dash; x] [c_dash; x] (cl_prefix c)
                (find_nothrow (cl_desc c) [c_dash; x] false false
                   (has (cl_style c) short_case_insensitive)) in
    let* r := finish_option c (style_parsers c) (raw [c_dash; x] [] [c_dash :: fl ++ [x]]) rest in
    Ok (fs ++ [fst r], snd r).
Proof.
  intros Hp Hc Hs Hd Hg Hst Hn Hf.
  destruct (parsers_short c Hp Hs Hd Hg) as (before & after & Es & Hb).
  destruct (finish_group c (style_parsers c) fl (raw [c_dash; x] [] [c_dash :: fl ++ [x]]) rest Hc Hf)
    as (fs & Hgo & Ef).
  exists fs. split; auto.
  assert (Hskip : forall q, In q before ->
            q ((c_dash :: fl ++ [x]) :: rest) = Ok ([], (c_dash :: fl ++ [x]) :: rest)).
  { intros q Hq. rewrite (Hb q Hq). apply long_skips. intros n En. injection En as En.
    destruct fl as [|a fl]; simpl in En; injection En as -> _; inversion Hn; congruence. }
  assert (Hps : parse_short_option c ((c_dash :: fl ++ [x]) :: rest)
    = let* _ := with_context [c_dash; x] [c_dash; x] (cl_prefix c)
                (find_nothrow (cl_desc c) [c_dash; x] false false
                   (has (cl_style c) short_case_insensitive)) in
      Ok (map (fun a => raw [c_dash; a] [] []) fl ++ [raw [c_dash; x] [] [c_dash :: fl ++ [x]]], rest)).
  { unfold parse_short_option. cbn [at_index nth_error bind].
    destruct fl as [|a fl]; cbn [app].
    - change (char_eqb c_dash c_dash) with true. inversion Hn as [|? ? Hx _]; subst.
      destruct (char_eqb_spec x c_dash); [congruence|]. cbn [andb negb].
      rewrite short_loop_last. destruct (with_context _ _ _ _) as [[d|]| | |]; reflexivity.
    - change (char_eqb c_dash c_dash) with true. inversion Hn as [|? ? Hx _]; subst.
      destruct (char_eqb_spec a c_dash); [congruence|]. cbn [andb negb].
      rewrite short_loop_group by auto. rewrite short_loop_last.
      destruct (with_context _ _ _ _) as [[d|]| | |]; reflexivity. }
  destruct (with_context _ _ _ _) as [xd|e|u|] eqn:Ew; cbn [bind] in *.
  - destruct (finish_option c (style_parsers c) (raw [c_dash; x] [] [c_dash :: fl ++ [x]]) rest)
      as [[f a]|e|u|] eqn:Eo; cbn [bind fst snd] in *.
    + eapply main_step_hit; eauto. eapply finish_option_length; eauto.
    + eapply main_step_finish_throw; eauto.
    + unfold main_step. rewrite Es at 2. rewrite try_skip by auto. cbn [try_parsers].
      rewrite Hps. cbn [bind]. now rewrite Ef.
    + unfold main_step. rewrite Es at 2. rewrite try_skip by auto. cbn [try_parsers].
      rewrite Hps. cbn [bind]. now rewrite Ef.
  - eapply main_step_throw; eauto.
  - unfold main_step. rewrite Es at 2. rewrite try_skip by auto. cbn [try_parsers]. now rewrite Hps.
  - unfold main_step. rewrite Es at 2. rewrite try_skip by auto. cbn [try_parsers]. now rewrite Hps.
Qed.

Lemma same_sym a b : same_option a b -> same_option b a.
Proof. intros (H1 & H2 & H3 & H4 & H5). repeat split; auto. Qed.

Lemma Forall2_eqv_refl l : Forall2 eqv l l.
Proof. induction l; constructor; auto using eqv_refl. Qed.

(** The main loop on the group and on the separate tokens. *)
Lemma sticky_loops c fl x rest :
  plain c -> case_sensitive c -> has (cl_style c) allow_short = true ->
  has (cl_style c) allow_dash_for_short = true -> has (cl_style c) allow_long_disguise = false ->
  has (cl_style c) allow_sticky = true ->
  Forall (fun a => a <> c_dash) (fl ++ [x]) -> Forall (is_flag c) fl ->
  let l1 := main_loop (S (List.length rest)) c ((c_dash :: fl ++ [x]) :: rest) in
  let l2 := main_loop (List.length fl + S (List.length rest)) c
              (map (fun a => [c_dash; a]) fl ++ [c_dash; x] :: rest) in
  (forall r, l1 = Ok r -> exists r', l2 = Ok r' /\ Forall2 eqv r r')
  /\ (forall r, l2 = Ok r -> exists r', l1 = Ok r' /\ Forall2 eqv r r').
Proof.
  intros Hp Hc Hs Hd Hg Hst Hn Hf l1 l2.
  destruct (group_step c fl x rest Hp Hc Hs Hd Hg Hst Hn Hf) as (fs & Hgo & E1).
  assert (Hn2 : Forall (fun a => a <> c_dash) fl /\ Forall (fun a => a <> c_dash) ([] ++ [x])).
  { apply Forall_app in Hn. simpl. tauto. }
  destruct Hn2 as [Hn2 Hnx].
  destruct (group_step c [] x rest Hp Hc Hs Hd Hg Hst Hnx (Forall_nil _)) as (fs0 & Hgo0 & E0).
  inversion Hgo0; subst fs0. cbn [app] in E0.
  destruct (flags_loop c fl (S (List.length rest)) ([c_dash; x] :: rest) Hp Hc Hs Hd Hg Hn2 Hf)
    as (fs2 & Hgo2 & E2).
  unfold l1, l2. rewrite E2. cbn [main_loop]. rewrite E1, E0.
  destruct (with_context _ _ _ _) as [xd|e|u|]; cbn [bind]; [|split; intros r Hr; discriminate..].
  assert (Hx : [c_dash; x] <> []) by discriminate.
  assert (Hgrp : Forall2 eqv fs fs2 /\ Forall2 eqv fs2 fs) by (split; eapply group_eqv; eauto).
  destruct Hgrp as [Hg12 Hg21].
  split; intros r Hr.
  - apply bind_Ok in Hr. destruct Hr as ((o & a) & Hr1 & Hr).
    apply bind_Ok in Hr1. destruct Hr1 as ((f & b) & Hfo & [= <- <-]).
    apply bind_Ok in Hr. destruct Hr as (more & Hm & [= <-]). cbn [fst snd] in *.
    destruct (finish_option_orig c _ [c_dash; x] [] _ [[c_dash; x]] rest f b Hx Hfo) as (f' & -> & Hsf & Hlen).
    cbn [bind fst snd]. rewrite Hm. cbn [bind]. eexists. split; [reflexivity|].
    rewrite <- app_assoc. apply Forall2_app; auto. constructor; [|apply Forall2_eqv_refl].
    split; auto.
  - apply bind_Ok in Hr. destruct Hr as (more2 & Hr1 & [= <-]).
    apply bind_Ok in Hr1. destruct Hr1 as ((o & a) & Hr1 & Hr).
    apply bind_Ok in Hr1. destruct Hr1 as ((f & b) & Hfo & [= <- <-]).
    apply bind_Ok in Hr. destruct Hr as (more & Hm & [= <-]). cbn [fst snd app] in *.
    destruct (finish_option_orig c _ [c_dash; x] [] _ [c_dash :: fl ++ [x]] rest f b Hx Hfo) as (f' & -> & Hsf & Hlen).
    cbn [bind fst snd]. rewrite Hm. cbn [bind]. eexists. split; [reflexivity|].
    rewrite <- app_assoc. apply Forall2_app; auto. constructor; [|apply Forall2_eqv_refl].
    split; auto.
Qed.

Lemma sticky_lemma c fl x rest :
  plain c -> case_sensitive c -> has (cl_style c) allow_short = true ->
  has (cl_style c) allow_dash_for_short = true -> has (cl_style c) allow_long_disguise = false ->
  has (cl_style c) allow_sticky = true ->
  Forall (fun a => a <> c_dash) (fl ++ [x]) -> Forall (is_flag c) fl ->
  let group := parse c ((c_dash :: fl ++ [x]) :: rest) in
  let separate := parse c (map (fun a => [c_dash; a]) fl ++ [c_dash; x] :: rest) in
  (forall r, group = Ok r -> exists r', separate = Ok r' /\ Forall2 same_option r r')
  /\ (forall r, separate = Ok r -> exists r', group = Ok r' /\ Forall2 same_option r r').
Proof.
  intros Hp Hc Hs Hd Hg Hst Hn Hf group separate.
  destruct (sticky_loops c fl x rest Hp Hc Hs Hd Hg Hst Hn Hf) as [H1 H2].
  assert (Hlen : List.length (map (fun a => [c_dash; a]) fl ++ [c_dash; x] :: rest)
                 = List.length fl + S (List.length rest)).
  { rewrite app_length, map_length. reflexivity. }
  unfold group, separate, parse, run. rewrite Hlen. cbn [List.length].
  split; intros r Hr; apply bind_Ok in Hr; destruct Hr as (r1 & Hm & Hr).
  - destruct (H1 _ Hm) as (r1' & -> & He). cbn [bind]. eapply passes_same; eauto.
  - destruct (H2 _ Hm) as (r1' & -> & He). cbn [bind]. eapply passes_same; eauto.
Qed.
