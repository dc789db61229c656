(** C85: the encoding of the locale. *)

From Coq Require Import List Ascii String NArith Bool Lia.
From Verif Require Import Base Errors Spec BaseFacts Values Convert SpecConvert ConvertFacts Wide SpecWide WideFacts.
Import ListNotations.

(** C85. [to_local_8_bit] writes a text in the code of the locale, or throws if it cannot be written in it, *)
Theorem C85_to_local : forall f enc dec ws, locale_facet f enc dec ->
  (exists s st, converts enc (cv_init f) ws s st /\ to_local_8_bit f ws = Ok s)
  \/ ((forall s st, ~ converts enc (cv_init f) ws s st) /\ to_local_8_bit f ws = Throw conversion_failed).
Proof. intros f enc dec ws [[l [Hl P]] _ F _]. eapply convert_correct; eauto. Qed.
Print Assumptions C85_to_local.

(** C85. [from_local_8_bit] reads a text in the code of the locale, or throws if it is not one, *)
Theorem C85_from_local : forall f enc dec s, locale_facet f enc dec ->
  (exists ws st, converts dec (cv_init f) s ws st /\ from_local_8_bit f s = Ok ws)
  \/ ((forall ws st, ~ converts dec (cv_init f) s ws st) /\ from_local_8_bit f s = Throw conversion_failed).
Proof. intros f enc dec s [_ [l [Hl P]] _ F]. eapply convert_correct; eauto. Qed.
Print Assumptions C85_from_local.

Lemma converts_back S (enc : character_code S wchar char) (dec : character_code S char wchar) :
  (forall st c o st', enc st c o st' -> dec st o c st') ->
  forall st ws s st', converts enc st ws s st' -> converts dec st s ws st'.
Proof. intros H st ws s st'. induction 1; econstructor; eauto. Qed.

(** C85. and if the facet reads the characters it writes, then what [to_local_8_bit] returns is read back, *)
Theorem C85_round_trip : forall f enc dec ws s, locale_facet f enc dec ->
  (forall st c o st', enc st c o st' -> dec st o c st') ->
  to_local_8_bit f ws = Ok s -> from_local_8_bit f s = Ok ws.
Proof.
  intros f enc dec ws s L H E. destruct (C85_to_local f enc dec ws L) as [(s' & st & Hc & E')|[_ E']]; [|congruence].
  assert (s' = s) by congruence. subst s'. apply (converts_back _ _ _ H) in Hc.
  destruct (C85_from_local f enc dec s L) as [(ws' & st' & Hc' & E2)|[Hn _]].
  - destruct (lf_dec _ _ _ L) as (l & _ & P). destruct (converts_fun _ _ P _ _ _ _ _ _ Hc Hc') as [-> _]. exact E2.
  - destruct (Hn _ _ Hc).
Qed.
Print Assumptions C85_round_trip.

(** C85. so that different texts have different forms. *)
Theorem C85_injective : forall f enc dec w1 w2 s, locale_facet f enc dec ->
  (forall st c o st', enc st c o st' -> dec st o c st') ->
  to_local_8_bit f w1 = Ok s -> to_local_8_bit f w2 = Ok s -> w1 = w2.
Proof. intros f enc dec w1 w2 s L H E1 E2. apply (C85_round_trip f enc dec) in E1, E2; auto. congruence. Qed.
Print Assumptions C85_injective.

(** C85. An option of narrow type that is given wide values gets them in the code of the locale; if one of them
    cannot be written in it, the value is not touched and the exception says that the conversion failed. *)
Theorem C85_narrow_option : forall lexical_cast tv v ws xs f enc dec, locale_facet f enc dec -> Forall2 utf8_text ws xs ->
  let option_ := typed lexical_cast (utf8_to_local (to_local_8_bit f)) tv in
  (exists ls, Forall2 (fun w l => exists st, converts enc (cv_init f) w l st) ws ls
              /\ vs_parse option_ v xs true = vs_parse option_ v ls false)
  \/ ((exists w, In w ws /\ forall l st, ~ converts enc (cv_init f) w l st)
      /\ vs_parse option_ v xs true = (v, Throw conversion_failed)).
Proof.
  intros lexical_cast tv v ws xs f enc dec L Hx option_. unfold option_. cbn [typed vs_parse]. unfold codecvt_parse.
  assert (E : (exists ls, Forall2 (fun w l => exists st, converts enc (cv_init f) w l st) ws ls
                 /\ mapM (utf8_to_local (to_local_8_bit f)) xs = Ok ls)
              \/ ((exists w, In w ws /\ forall l st, ~ converts enc (cv_init f) w l st)
                  /\ mapM (utf8_to_local (to_local_8_bit f)) xs = Throw conversion_failed)).
  { induction Hx as [|w x ws xs H _ IH].
    - left. exists []. split; constructor.
    - cbn [mapM]. unfold utf8_to_local at 1 3. rewrite (from_utf8_text _ _ H). cbn [bind].
      destruct (C85_to_local f enc dec w L) as [(l & st & Hc & ->)|[Hn ->]]; cbn [bind].
      + destruct IH as [(ls & Hls & ->)|[(w' & Hi & Hn) ->]]; cbn [bind].
        * left. exists (l :: ls). split; [constructor; eauto|reflexivity].
        * right. split; [exists w'; split; [now right|exact Hn]|reflexivity].
      + right. split; [exists w; split; [now left|exact Hn]|reflexivity]. }
  destruct E as [(ls & Hls & ->)|[Hn ->]]; [left; eauto|right; auto].
Qed.
Print Assumptions C85_narrow_option.

(** C85. An option of wide type that is given narrow values reads them in the code of the locale: it gets what a wide
    source would have given. *)
Theorem C85_wide_option : forall wlexical_cast wide_string wide_code tv v xs f enc dec, locale_facet f enc dec ->
  let option_ := wtyped (to_local_8_bit f) (from_local_8_bit f) wlexical_cast wide_string wide_code tv in
  (exists ws, Forall2 (fun x w => exists st, converts dec (cv_init f) x w st) xs ws
              /\ forall us, Forall2 utf8_text ws us -> vs_parse option_ v xs false = vs_parse option_ v us true)
  \/ ((exists x, In x xs /\ forall w st, ~ converts dec (cv_init f) x w st)
      /\ vs_parse option_ v xs false = (v, Throw conversion_failed)).
Proof.
  intros wlexical_cast wide_string wide_code tv v xs f enc dec L option_. unfold option_. cbn [wtyped vs_parse]. unfold wcodecvt_parse.
  assert (E : (exists ws, Forall2 (fun x w => exists st, converts dec (cv_init f) x w st) xs ws
                 /\ mapM (from_local_8_bit f) xs = Ok ws)
              \/ ((exists x, In x xs /\ forall w st, ~ converts dec (cv_init f) x w st)
                  /\ mapM (from_local_8_bit f) xs = Throw conversion_failed)).
  { induction xs as [|x xs IH].
    - left. exists []. split; constructor.
    - cbn [mapM]. destruct (C85_from_local f enc dec x L) as [(w & st & Hc & ->)|[Hn ->]]; cbn [bind].
      + destruct IH as [(ws & Hws & ->)|[(x' & Hi & Hn) ->]]; cbn [bind].
        * left. exists (w :: ws). split; [constructor; eauto|reflexivity].
        * right. split; [exists x'; split; [now right|exact Hn]|reflexivity].
      + right. split; [exists x; split; [now left|exact Hn]|reflexivity]. }
  destruct E as [(ws & Hws & ->)|[Hn ->]]; [left|right; auto]. exists ws. split; auto. intros us Hu.
  assert (Eu : mapM from_utf8 us = Ok ws).
  { induction Hu as [|w u ws' us' H _ IH] in xs, Hws |- *; [reflexivity|]. cbn [mapM]. rewrite (from_utf8_text _ _ H). cbn [bind].
    inversion Hws; subst. erewrite IH by eauto. reflexivity. }
  now rewrite Eu.
Qed.
Print Assumptions C85_wide_option.

(** A locale whose code is ISO 8859-1. *)
Definition latin1_out : cvt unit wchar char := fun st from room =>
  let fix go (from : wstr) (room : nat) : cvt_result * nat * str :=
    match from with
    | [] => (cvt_ok, 0, [])
    | w :: from' =>
        match room with
        | 0 => (cvt_partial, 0, [])
        | S room' =>
            if (w <? 256)%N then match go from' room' with (r, n, out) => (r, S n, ascii_of_N w :: out) end
            else (cvt_error, 0, [])
        end
    end in
  match go from room with (r, n, out) => (r, tt, n, out) end.
Definition latin1_in : cvt unit char wchar := fun st from room =>
  let fix go (from : str) (room : nat) : cvt_result * nat * wstr :=
    match from with
    | [] => (cvt_ok, 0, [])
    | x :: from' =>
        match room with
        | 0 => (cvt_partial, 0, [])
        | S room' => match go from' room' with (r, n, out) => (r, S n, N_of_ascii x :: out) end
        end
    end in
  match go from room with (r, n, out) => (r, tt, n, out) end.
Definition latin1 : codecvt := mk_codecvt tt latin1_in latin1_out.
Definition latin1_enc : character_code unit wchar char := fun _ c o _ => exists w, (w < 256)%N /\ c = [w] /\ o = [ascii_of_N w].
Definition latin1_dec : character_code unit char wchar := fun _ c o _ => exists x, c = [x] /\ o = [N_of_ascii x].

Lemma latin1_locale : locale_facet latin1 latin1_enc latin1_dec.
Proof.
  split.
  - exists 1. split; [lia|]. split.
    + intros st c o st' (w & _ & -> & _). discriminate.
    + intros st c o st' (w & _ & _ & ->). split; [discriminate|cbn; lia].
    + intros st c o [] c' o' [] x x' (w & _ & -> & ->) (w' & _ & -> & ->) [= -> ->]. auto.
  - exists 1. split; [lia|]. split.
    + intros st c o st' (w & -> & _). discriminate.
    + intros st c o st' (w & _ & ->). split; [discriminate|cbn; lia].
    + intros st c o [] c' o' [] x x' (w & -> & ->) (w' & -> & ->) [= -> ->]. auto.
  - intros [] from room. unfold latin1, latin1_out. cbn [cv_out].
    revert room. induction from as [|w from IH]; intros room.
    { exists [], []. repeat split; auto; [constructor|cbn; lia]. }
    destruct room as [|room].
    { exists [], (w :: from). repeat split; auto; [constructor|discriminate|].
      destruct (N.lt_ge_cases w 256) as [Hw|Hw].
      - right. exists [w], [ascii_of_N w], tt, from. repeat split; [|cbn; lia]. exists w. auto.
      - left. intros c o st' rest E (w' & Hw' & -> & _). injection E as -> _. lia. }
    destruct (N.ltb_spec w 256) as [Hw|Hw].
    + specialize (IH room). match goal with |- context [match ?g from room with _ => _ end] => destruct (g from room) as [[r n] out] end.
      destruct IH as (done & rest & -> & -> & Hc & Hl & Hr). exists (w :: done), rest. repeat split; auto.
      * apply (converts_cons _ _ [w] [ascii_of_N w] tt); auto. exists w. auto.
      * cbn. lia.
      * destruct r; auto. destruct Hr as [H1 [H2|(c & o & st2 & tl & E1 & E2 & E3)]]; split; auto. right.
        exists c, o, st2, tl. repeat split; auto. cbn. lia.
    + exists [], (w :: from). repeat split; auto; [constructor|cbn; lia|discriminate|].
      intros c o st' rest E (w' & Hw' & -> & _). injection E as -> _. lia.
  - intros [] from room. unfold latin1, latin1_in. cbn [cv_in].
    revert room. induction from as [|w from IH]; intros room.
    { exists [], []. repeat split; auto; [constructor|cbn; lia]. }
    destruct room as [|room].
    { exists [], (w :: from). repeat split; auto; [constructor|discriminate|].
      right. exists [w], [N_of_ascii w], tt, from. repeat split; [|cbn; lia]. exists w. auto. }
    specialize (IH room). match goal with |- context [match ?g from room with _ => _ end] => destruct (g from room) as [[r n] out] end.
    destruct IH as (done & rest & -> & -> & Hc & Hl & Hr). exists (w :: done), rest. repeat split; auto.
    * apply (converts_cons _ _ [w] [N_of_ascii w] tt); auto. exists w. auto.
    * cbn. lia.
    * destruct r; auto. destruct Hr as [H1 [H2|(c & o & st2 & tl & E1 & E2 & E3)]]; split; auto. right.
      exists c, o, st2, tl. repeat split; auto. cbn. lia.
Qed.

Example C85_ex :
  locale_facet latin1 latin1_enc latin1_dec
  /\ (forall st c o st', latin1_enc st c o st' -> latin1_dec st o c st')
  /\ to_local_8_bit latin1 (repeat 233%N 40) = Ok (repeat (ascii_of_N 233) 40)
  /\ from_local_8_bit latin1 (repeat (ascii_of_N 233) 40) = Ok (repeat 233%N 40)
  /\ to_local_8_bit latin1 [97; 8364]%N = Throw conversion_failed.
Proof.
  split; [exact latin1_locale|]. split.
  - intros st c o st' (w & Hw & -> & ->). exists (ascii_of_N w). split; auto. now rewrite N_ascii_embedding.
  - repeat split; vm_compute; reflexivity.
Qed.

(** A code with shifts: the octet 14 moves the following ones to the upper half, 15 back.  Like other facets this one
    stops when the destination is full. *)
Definition shift_in : cvt bool char wchar := fun st from room =>
  let fix go (st : bool) (from : str) (room : nat) : cvt_result * bool * nat * wstr :=
    match from, room with
    | [], _ => (cvt_ok, st, 0, [])
    | _, 0 => (cvt_partial, st, 0, [])
    | x :: from', S room' =>
        let n := N_of_ascii x in
        if (n =? 14)%N then match go true from' room with (r, st', k, out) => (r, st', S k, out) end
        else if (n =? 15)%N then match go false from' room with (r, st', k, out) => (r, st', S k, out) end
        else match go st from' room' with (r, st', k, out) => (r, st', S k, (if st then n + 128 else n)%N :: out) end
    end in go st from room.

(** C85. If shifts write nothing by themselves, whether a text is read depends on the size of the buffer: a shift
    back at the end is taken for an error when it follows 32 characters. *)
Theorem C85_shift_refuted :
  exists (f : cvt bool char wchar) (text : nat -> str),
    (forall n, text n = ascii_of_N 14 :: repeat "a"%char n ++ [ascii_of_N 15])
    /\ convert f false (text 31) = Ok (repeat 225%N 31)
    /\ convert f false (text 32) = Throw conversion_failed
    /\ convert f false (text 33) = Ok (repeat 225%N 33)
    /\ convert_loop 40 f 64 false (text 32) = Ok (repeat 225%N 32).
Proof.
  exists shift_in, (fun n => ascii_of_N 14 :: repeat "a"%char n ++ [ascii_of_N 15]).
  repeat split; vm_compute; reflexivity.
Qed.
Print Assumptions C85_shift_refuted.
