(** Lemmas about the user's code that is called while a source is stored. *)

From Coq Require Import List Ascii String NArith ZArith Bool Arith Lia.
From Verif Require Import Base Errors Spec BaseFacts Values OptDesc Cmdline Parsers VarMap SpecStore StoreFacts UserStore SpecUserStore.
Import ListNotations.

Definition latest_in (m : smap variable_value) (h : list user_call) (name : str) : any :=
  fold_left (fun a c => match c with UParse _ n _ _ after _ => if str_eqb n name then after else a | UDefault _ _ => a end) h
    (given (sm_find name m)).

Definition duef (final : sset) (o : popt) : bool := negb (is_empty (po_key o)) && negb (po_unreg o) && negb (ss_mem (po_key o) final).
Definition first_token (o : popt) : str := match po_orig o with t :: _ => t | [] => [] end.

Lemma latest_cons m d name b t a r h n sem :
  latest_in m (UParse d name b t a r :: h) n = latest_in (sm_set name (mk_vv a false sem) m) h n.
Proof.
  unfold latest_in. cbn [fold_left]. f_equal. rewrite sm_find_set. destruct (str_eqb name n) eqn:E.
  - apply str_eqb_eq in E as ->. now rewrite str_eqb_refl.
  - destruct (str_eqb n name) eqn:E2; [|reflexivity]. apply str_eqb_eq in E2 as ->. now rewrite str_eqb_refl in E.
Qed.

Lemma latest_none m h name : ~ In name (parsed_names h) -> latest_in m h name = given (sm_find name m).
Proof.
  unfold latest_in. generalize (given (sm_find name m)) as a. induction h as [|[d n b t a' r|d r] h IH]; intros a H; [reflexivity| |].
  - cbn [fold_left]. cbn [parsed_names flat_map] in H. destruct (str_eqb n name) eqn:E.
    + apply str_eqb_eq in E as ->. exfalso. apply H. now left.
    + apply IH. intros K. apply H. now right.
  - cbn [fold_left]. now apply IH.
Qed.

Definition cleared (e : option variable_value) : variable_value :=
  let v0 := match e with Some v => v | None => vv_empty end in if vv_defaulted v0 then vv_empty else v0.

Lemma cleared_given e : vv_value (cleared e) = given e /\ vv_defaulted (cleared e) = false.
Proof. unfold cleared. destruct e as [[a [] s]|]; cbn; auto. Qed.

Section Options.
Variable ds : list option_description.
Variable prefix : Z.
Variable final : sset.
Variable utf8 : bool.

Definition failed_to_find (o : popt) (r : outcome unit) : Prop :=
  match find ds (po_key o) false false false with
  | Ok _ => False
  | Throw e => r = Throw (add_context (po_key o) (first_token o) prefix e)
  | Undef u => r = Undef u
  | NoFuel => r = NoFuel
  end.

Definition ending (h : list user_call) (os1 later : list popt) (r : outcome unit) : Prop :=
  (r = Ok tt /\ later = [] /\ Forall returned h)
  \/ (exists h1 os0 o d b a r0, h = h1 ++ [UParse d (po_key o) b (po_value o) a r0] /\ os1 = os0 ++ [o] /\ Forall returned h1
        /\ r0 <> Ok tt /\ r = with_context (po_key o) (first_token o) prefix r0)
  \/ (exists o rest, later = o :: rest /\ Forall returned h /\ failed_to_find o r).

Definition settled (r : outcome unit) : Prop := r = Ok tt \/ exists e, r = Throw e.

Lemma options_spec {S} (code : user_code S) : forall opts m nf s s' m' nf' r,
  ustore_options code ds prefix final utf8 opts m nf s = (s', m', nf', r) ->
  exists h os1 later,
    made code utf8 s h s' /\ filter (duef final) opts = os1 ++ later /\ Forall2 (call_for ds) os1 h
    /\ (forall h1 d n b t a r0 h2, h = h1 ++ UParse d n b t a r0 :: h2 -> b = latest_in m h1 n)
    /\ ending h os1 later r
    /\ (forall name, ~ In name (parsed_names h) -> sm_find name m' = sm_find name m)
    /\ (settled r -> forall name, In name (parsed_names h) -> exists sem, sm_find name m' = Some (mk_vv (latest_in m h name) false sem))
    /\ (r = Ok tt -> forall name, In name (parsed_names h) ->
          exists d, find ds name false false false = Ok d /\ sm_find name m' = Some (mk_vv (latest_in m h name) false (Some (od_sem d))))
    /\ (forall T (code' : user_code T) t t', made code' utf8 t h t' ->
          ustore_options code' ds prefix final utf8 opts m nf t = (t', m', nf', r)).
Proof.
  induction opts as [|o opts IH]; intros m nf s s' m' nf' r H; cbn [ustore_options] in H.
  - injection H as <- <- <- <-. exists [], [], []. split; [constructor|]. split; [reflexivity|]. split; [constructor|].
    split; [intros [|? ?]; discriminate|]. split; [left; repeat split; constructor|]. split; [reflexivity|]. split; [intros _ ? []|].
    split; [intros _ ? []|]. intros T code' t t' Hm. inversion Hm; subst. reflexivity.
  - assert (Skip : duef final o = false -> ustore_options code ds prefix final utf8 opts m nf s = (s', m', nf', r) ->
      (forall T (code' : user_code T) t, ustore_options code' ds prefix final utf8 (o :: opts) m nf t = ustore_options code' ds prefix final utf8 opts m nf t) ->
      exists h os1 later,
        made code utf8 s h s' /\ filter (duef final) (o :: opts) = os1 ++ later /\ Forall2 (call_for ds) os1 h
        /\ (forall h1 d n b t a r0 h2, h = h1 ++ UParse d n b t a r0 :: h2 -> b = latest_in m h1 n)
        /\ ending h os1 later r
        /\ (forall name, ~ In name (parsed_names h) -> sm_find name m' = sm_find name m)
        /\ (settled r -> forall name, In name (parsed_names h) -> exists sem, sm_find name m' = Some (mk_vv (latest_in m h name) false sem))
        /\ (r = Ok tt -> forall name, In name (parsed_names h) ->
              exists d, find ds name false false false = Ok d /\ sm_find name m' = Some (mk_vv (latest_in m h name) false (Some (od_sem d))))
        /\ (forall T (code' : user_code T) t t', made code' utf8 t h t' ->
              ustore_options code' ds prefix final utf8 (o :: opts) m nf t = (t', m', nf', r))).
    { intros Hd Hr Hall. destruct (IH _ _ _ _ _ _ _ Hr) as (h & os1 & later & H1 & H2 & H3 & H4 & H5 & H6 & H7 & H8 & H9).
      exists h, os1, later. cbn [filter]. rewrite Hd. repeat (split; [assumption|]). intros T code' t t' Hm. rewrite Hall. now apply H9. }
    destruct (is_empty (po_key o)) eqn:E1.
    { apply Skip; [unfold duef; now rewrite E1|exact H|]. intros T code' t. cbn [ustore_options]. now rewrite E1. }
    destruct (po_unreg o) eqn:E2.
    { apply Skip; [unfold duef; now rewrite E1, E2|exact H|]. intros T code' t. cbn [ustore_options]. now rewrite E1, E2. }
    destruct (ss_mem (po_key o) final) eqn:E3.
    { apply Skip; [unfold duef; now rewrite E1, E2, E3|exact H|]. intros T code' t. cbn [ustore_options]. now rewrite E1, E2, E3. }
    clear Skip. assert (Hd : duef final o = true) by (unfold duef; now rewrite E1, E2, E3). cbn [filter]. rewrite Hd.
    change (match po_orig o with [] => [] | t :: _ => t end) with (first_token o) in H.
    change (if vv_defaulted (match sm_find (po_key o) m with Some x => x | None => vv_empty end) then vv_empty
            else match sm_find (po_key o) m with Some y => y | None => vv_empty end) with (cleared (sm_find (po_key o) m)) in H.
    assert (Unf : forall T (code' : user_code T) t, ustore_options code' ds prefix final utf8 (o :: opts) m nf t =
      match find ds (po_key o) false false false with
      | Ok d =>
          let '(s1, (a, r)) := us_parse (code' d) (vv_value (cleared (sm_find (po_key o) m))) (po_value o) utf8 t in
          match r with
          | Ok _ =>
              ustore_options code' ds prefix final utf8 opts
                (sm_set (po_key o) (mk_vv a (vv_defaulted (cleared (sm_find (po_key o) m))) (Some (od_sem d))) m)
                (if vs_composing (od_sem d) then nf else ss_insert (po_key o) nf) s1
          | Throw e => (s1, sm_set (po_key o) (mk_vv a (vv_defaulted (cleared (sm_find (po_key o) m))) (vv_sem (cleared (sm_find (po_key o) m)))) m, nf,
                        Throw (add_context (po_key o) (first_token o) prefix e))
          | Undef u => (s1, m, nf, Undef u)
          | NoFuel => (s1, m, nf, NoFuel)
          end
      | Throw e => (t, m, nf, Throw (add_context (po_key o) (first_token o) prefix e))
      | Undef u => (t, m, nf, Undef u)
      | NoFuel => (t, m, nf, NoFuel)
      end).
    { intros T code' t. cbn [ustore_options]. now rewrite E1, E2, E3. }
    destruct (find ds (po_key o) false false false) as [d|e|u|] eqn:Ef.
    2-4: (exists [], [], (o :: filter (duef final) opts); injection H as <- <- <- <-; split; [constructor|]; split; [reflexivity|];
      split; [constructor|]; split; [intros [|? ?]; discriminate|];
      split; [right; right; exists o, (filter (duef final) opts); split; [reflexivity|]; split; [constructor|]; unfold failed_to_find; now rewrite Ef|];
      split; [reflexivity|]; split; [intros _ ? []|]; split; [discriminate|]; intros T code' t t' Hm; rewrite Unf; inversion Hm; now subst).
    destruct (cleared_given (sm_find (po_key o) m)) as [Cv Cd]. rewrite Cv, Cd in H.
    destruct (us_parse (code d) (given (sm_find (po_key o) m)) (po_value o) utf8 s) as [s1 [a r1]] eqn:Ep.
    set (c := UParse d (po_key o) (given (sm_find (po_key o) m)) (po_value o) a r1).
    assert (Cf : call_for ds o c) by (exists d, (given (sm_find (po_key o) m)), a, r1; split; [reflexivity|exact Ef]).
    destruct r1 as [[]|e|u|].
    2-4: (exists [c], [o], (filter (duef final) opts); injection H as <- <- <- <-;
      split; [eapply ma_parse; [exact Ep|apply ma_none]|]; split; [reflexivity|]; split; [apply Forall2_cons; [exact Cf|apply Forall2_nil]|];
      split; [intros h1 d0 n b t a0 r0 h2 Hh; destruct h1 as [|x h1]; [injection Hh as <- <- <- <- <- <- <-; reflexivity|destruct h1; discriminate]|];
      split; [right; left; exists [], [], o, d, (given (sm_find (po_key o) m)), a; eexists; split; [reflexivity|]; split; [reflexivity|];
              split; [apply Forall_nil|]; split; [discriminate|reflexivity]|]).
    2:{ split.
        { intros name Hn. apply sm_find_set_other. intros ->. apply Hn. now left. }
        split.
        { intros _ name [<-|[]]. exists (vv_sem (cleared (sm_find (po_key o) m))). rewrite sm_find_set_same. f_equal. f_equal.
          unfold latest_in, c. cbn [fold_left]. now rewrite str_eqb_refl. }
        split; [discriminate|]. intros T code' t t' Hm. rewrite Unf, Cv, Cd. inversion Hm as [|? ? ? ? ? ? ? s2 ? ? K1 K2|]; subst. rewrite K1.
        inversion K2; now subst. }
    2-3: (split; [reflexivity|]; split; [intros [K|(e & K)]; discriminate|]; split; [discriminate|];
        intros T code' t t' Hm; rewrite Unf, Cv, Cd; inversion Hm as [|? ? ? ? ? ? ? s2 ? ? K1 K2|]; subst; rewrite K1; inversion K2; now subst).
    destruct (IH _ _ _ _ _ _ _ H) as (h & os1 & later & H1 & H2 & H3 & H4 & H5 & H6 & H7 & H8 & H9). clear IH.
    set (m1 := sm_set (po_key o) (mk_vv a false (Some (od_sem d))) m) in *.
    assert (L : forall h0 n, latest_in m (c :: h0) n = latest_in m1 h0 n) by (intros h0 n; apply latest_cons).
    exists (c :: h), (o :: os1), later. split; [eapply ma_parse; eauto|]. split; [cbn; now rewrite H2|]. split; [now constructor|]. split.
    { intros h1 d0 n b t a0 r0 h2 Hh. destruct h1 as [|x h1]; cbn [app] in Hh.
      - injection Hh as <- <- <- <- <- <- <-. reflexivity.
      - injection Hh as <- Hh. rewrite L. eapply H4; eauto. }
    split.
    { destruct H5 as [(-> & -> & Hr)|[(h1 & os0 & o1 & d1 & b1 & a1 & r1 & -> & -> & Hr & K1 & K2)|(o1 & rest & -> & Hr & K)]].
      - left. split; [reflexivity|]. split; [reflexivity|]. constructor; [reflexivity|exact Hr].
      - right. left. exists (c :: h1), (o :: os0), o1, d1, b1, a1, r1. split; [reflexivity|]. split; [reflexivity|].
        split; [constructor; [reflexivity|exact Hr]|now split].
      - right. right. exists o1, rest. split; [reflexivity|]. split; [constructor; [reflexivity|exact Hr]|exact K]. }
    assert (Dec : forall name, In name (parsed_names h) \/ ~ In name (parsed_names h)).
    { intros name. destruct (in_dec (list_eq_dec ascii_dec) name (parsed_names h)); auto. }
    split.
    { intros name Hn. rewrite H6; [|intros K; apply Hn; now right]. apply sm_find_set_other. intros ->. apply Hn. now left. }
    split.
    { intros Hr name Hn. rewrite L. destruct (Dec name) as [K|K]; [now apply H7|]. destruct Hn as [<-|Hn]; [|contradiction].
      rewrite H6, latest_none by assumption. unfold m1. rewrite sm_find_set_same. cbn. eauto. }
    split.
    { intros Hr name Hn. rewrite L. destruct (Dec name) as [K|K]; [now apply H8|]. destruct Hn as [<-|Hn]; [|contradiction].
      rewrite H6, latest_none by assumption. unfold m1. rewrite sm_find_set_same. cbn. eauto. }
    intros T code' t t' Hm. rewrite Unf, Cv, Cd. inversion Hm as [|? ? ? ? ? ? ? s2 ? ? K1 K2|]; subst. rewrite K1. now apply H9.
Qed.
End Options.

(** The names decided by the options loop *)
Lemma options_final {S} (code : user_code S) ds prefix final utf8 : forall opts m nf s s' m' nf' r,
  ustore_options code ds prefix final utf8 opts m nf s = (s', m', nf', r) -> r = Ok tt ->
  forall n, In n nf' <-> In n nf \/ exists o d, In o (filter (duef final) opts) /\ po_key o = n /\ find ds n false false false = Ok d /\ vs_composing (od_sem d) = false.
Proof.
  induction opts as [|o opts IH]; intros m nf s s' m' nf' r H Hr n; cbn [ustore_options] in H.
  - injection H as <- <- <- <-. cbn. split; [auto|]. intros [K|(o & d & [] & _)]. exact K.
  - destruct (is_empty (po_key o)) eqn:E1; [cbn [filter]; unfold duef at 1; rewrite E1; cbn; eapply IH; eauto|].
    destruct (po_unreg o) eqn:E2; [cbn [filter]; unfold duef at 1; rewrite E1, E2; cbn; eapply IH; eauto|].
    destruct (ss_mem (po_key o) final) eqn:E3; [cbn [filter]; unfold duef at 1; rewrite E1, E2, E3; cbn; eapply IH; eauto|].
    cbn [filter]. unfold duef at 1. rewrite E1, E2, E3. cbn [negb andb].
    destruct (find ds (po_key o) false false false) as [d|e|u|] eqn:Ef.
    2-4: (injection H as <- <- <- <-; discriminate).
    match type of H with context [us_parse ?a ?b ?c ?d ?e] => destruct (us_parse a b c d e) as [s1 [a0 [[]|?|?|]]] end.
    2-4: (injection H as <- <- <- <-; discriminate).
    rewrite (IH _ _ _ _ _ _ _ H Hr n). split.
    + intros [K|(o1 & d1 & K1 & K2)]; [|right; exists o1, d1; split; [now right|exact K2]].
      destruct (vs_composing (od_sem d)) eqn:Ec; [now left|]. apply ss_insert_In in K as [->|K]; [|now left].
      right. exists o, d. repeat split; auto. now left.
    + intros [K|(o1 & d1 & [<-|K1] & K2 & K3 & K4)].
      * left. destruct (vs_composing (od_sem d)); [exact K|]. apply ss_insert_In. now right.
      * left. subst n. rewrite Ef in K3. injection K3 as <-. rewrite K4. apply ss_insert_In. now left.
      * right. exists o1, d1. auto.
Qed.

Definition void {A} (r : outcome A) : outcome unit :=
  match r with Ok _ => Ok tt | Throw e => Throw e | Undef u => Undef u | NoFuel => NoFuel end.

Lemma asks_iff P Q ds h : (forall k, P k <-> Q k) -> asks P ds h -> asks Q ds h.
Proof.
  intros E H. revert Q E. induction H as [|P d ds h H1 H2 IH|P d ds h H1 H2 H3 IH|P d ds a h H1 H2 H3 IH|P d ds r H1 H2 H3]; intros Q E.
  - constructor.
  - apply as_skip; [rewrite <- E; exact H1|now apply IH].
  - apply as_none; [exact H1|rewrite <- E; exact H2|now apply IH].
  - apply as_some; [exact H1|rewrite <- E; exact H2|]. apply IH. intros k. now rewrite E.
  - apply as_end; [exact H1|rewrite <- E; exact H2|exact H3].
Qed.

Section Defaults.
Variable prefix : Z.
Variable utf8 : bool.

Definition defaults_ending (h : list user_call) (r : outcome unit) : Prop :=
  (r = Ok tt /\ Forall returned h)
  \/ (exists h1 d r0, h = h1 ++ [UDefault d r0] /\ Forall returned h1 /\ (forall x, r0 <> Ok x) /\ r = void r0).

Lemma defaults_spec {S} (code : user_code S) : forall ds m req s s' m' req' r,
  ustore_defaults code ds prefix m req s = (s', m', req', r) ->
  exists h,
    made code utf8 s h s' /\ asks (fun k => sm_find k m <> None) ds h /\ defaults_ending h r
    /\ (forall name, sm_find name m <> None -> sm_find name m' = sm_find name m)
    /\ (forall d a, In (UDefault d (Ok (Some a))) h -> sm_find (od_key d []) m = None /\ sm_find (od_key d []) m' = Some (mk_vv a true (Some (od_sem d))))
    /\ (forall name, sm_find name m = None -> (forall d a, In (UDefault d (Ok (Some a))) h -> od_key d [] <> name) -> sm_find name m' = None)
    /\ (r = Ok tt -> forall m0, snd (store_defaults ds prefix m0 req) = req')
    /\ (forall T (code' : user_code T) t t', made code' utf8 t h t' ->
          ustore_defaults code' ds prefix m req t = (t', m', req', r)).
Proof.
  induction ds as [|d ds IH]; intros m req s s' m' req' r H.
  - injection H as <- <- <- <-. exists []. split; [constructor|]. split; [constructor|]. split; [left; split; [reflexivity|constructor]|].
    split; [reflexivity|]. split; [intros ? ? []|]. split; [auto|]. split; [reflexivity|]. intros T code' t t' Hm. inversion Hm; now subst.
  - cbn [ustore_defaults] in H. destruct (is_empty (od_key d [])) eqn:E1.
    { destruct (IH _ _ _ _ _ _ _ H) as (h & H1 & H2 & H3 & H4 & H5 & H6 & H7 & H8). exists h. split; [exact H1|].
      split; [apply as_skip; [left; now destruct (od_key d [])|exact H2]|]. repeat (split; [assumption|]).
      split; [intros Hr m0; cbn [store_defaults]; rewrite E1; now apply H7|].
      intros T code' t t' Hm. cbn [ustore_defaults]. rewrite E1. now apply H8. }
    assert (Ne : od_key d [] <> []) by (intros K; now rewrite K in E1).
    set (req1 := if vs_required (od_sem d) then
      sm_set (od_key d [])
        (if (List.length (match sm_find (od_key d []) req with Some x => x | None => [] end) <? List.length (canonical_display_name d prefix))%nat
         then canonical_display_name d prefix else match sm_find (od_key d []) req with Some x => x | None => [] end) req else req).
    assert (Unf : forall T (code' : user_code T) t, ustore_defaults code' (d :: ds) prefix m req t =
      let (s1, r) := if sm_mem (od_key d []) m then (t, Ok None) else us_default (code' d) t in
      match r with
      | Ok def => ustore_defaults code' ds prefix (match def with Some a => sm_set (od_key d []) (mk_vv a true (Some (od_sem d))) m | None => m end) req1 s1
      | Throw e => (s1, m, req, Throw e)
      | Undef u => (s1, m, req, Undef u)
      | NoFuel => (s1, m, req, NoFuel)
      end).
    { intros T code' t. cbn [ustore_defaults]. rewrite E1. reflexivity. }
    assert (Req : forall m0, exists m1, store_defaults (d :: ds) prefix m0 req = store_defaults ds prefix m1 req1).
    { intros m0. cbn [store_defaults]. rewrite E1. eexists. reflexivity. }
    change (match vs_required (od_sem d) with true => _ | false => req end) with req1 in H.
    destruct (sm_mem (od_key d []) m) eqn:E2.
    { destruct (IH _ _ _ _ _ _ _ H) as (h & H1 & H2 & H3 & H4 & H5 & H6 & H7 & H8). exists h. split; [exact H1|].
      split; [apply as_skip; [right; apply sm_mem_find in E2 as (v & ->); discriminate|exact H2]|]. repeat (split; [assumption|]).
      split; [intros Hr m0; destruct (Req m0) as (m1 & ->); now apply H7|].
      intros T code' t t' Hm. rewrite Unf. now apply H8. }
    assert (Nf : sm_find (od_key d []) m = None).
    { destruct (sm_find (od_key d []) m) eqn:K; [|reflexivity]. unfold sm_mem in E2. now rewrite K in E2. }
    destruct (us_default (code d) s) as [s1 r1] eqn:Ed.
    assert (Np : ~ sm_find (od_key d []) m <> None) by (intros K; now apply K).
    assert (Ans : forall T (code' : user_code T) t t' h, made code' utf8 t (UDefault d r1 :: h) t' ->
      exists t1, us_default (code' d) t = (t1, r1) /\ made code' utf8 t1 h t').
    { intros T code' t t' h Hm. inversion Hm; subst. eauto. }
    assert (Stop : (forall x, r1 <> Ok x) -> (s', m', req', r) = (s1, m, req, void r1) ->
      exists h,
        made code utf8 s h s' /\ asks (fun k => sm_find k m <> None) (d :: ds) h /\ defaults_ending h r
        /\ (forall name, sm_find name m <> None -> sm_find name m' = sm_find name m)
        /\ (forall d a, In (UDefault d (Ok (Some a))) h -> sm_find (od_key d []) m = None /\ sm_find (od_key d []) m' = Some (mk_vv a true (Some (od_sem d))))
        /\ (forall name, sm_find name m = None -> (forall d a, In (UDefault d (Ok (Some a))) h -> od_key d [] <> name) -> sm_find name m' = None)
        /\ (r = Ok tt -> forall m0, snd (store_defaults (d :: ds) prefix m0 req) = req')
        /\ (forall T (code' : user_code T) t t', made code' utf8 t h t' ->
              ustore_defaults code' (d :: ds) prefix m req t = (t', m', req', r))).
    { intros Hx [= -> -> -> ->]. exists [UDefault d r1]. split; [eapply ma_default; [exact Ed|apply ma_none]|].
      split; [apply as_end; assumption|]. split; [right; exists [], d, r1; repeat split; [apply Forall_nil|exact Hx]|].
      split; [reflexivity|]. split; [intros ? ? [[= -> ->]|[]]; now destruct (Hx (Some a))|]. split; [auto|].
      split; [destruct r1 as [x|?|?|]; [now destruct (Hx x)|discriminate..]|].
      intros T code' t t' Hm. apply Ans in Hm as (t1 & K1 & K2). inversion K2; subst. rewrite Unf, K1.
      destruct r1 as [x|?|?|]; [now destruct (Hx x)|reflexivity..]. }
    destruct r1 as [def|e|u|]; [|apply Stop; [discriminate|symmetry; exact H]..]. clear Stop.
    destruct (IH _ _ _ _ _ _ _ H) as (h & H1 & H2 & H3 & H4 & H5 & H6 & H7 & H8). exists (UDefault d (Ok def) :: h).
    assert (End : defaults_ending (UDefault d (Ok def) :: h) r).
    { destruct H3 as [(-> & Hr)|(h1 & d1 & r0 & -> & Hr & K1 & K2)].
      - left. split; [reflexivity|]. constructor; [now exists def|exact Hr].
      - right. exists (UDefault d (Ok def) :: h1), d1, r0. split; [reflexivity|]. split; [constructor; [now exists def|exact Hr]|now split]. }
    split; [eapply ma_default; eauto|]. destruct def as [a|].
    + assert (Fk : forall k, sm_find k (sm_set (od_key d []) (mk_vv a true (Some (od_sem d))) m) <> None <-> sm_find k m <> None \/ k = od_key d []).
      { intros k. rewrite sm_find_set. destruct (str_eqb_spec k (od_key d [])) as [->|K]; [split; [now right|discriminate]|]. tauto. }
      split; [apply as_some; [assumption..|]; eapply asks_iff; [|exact H2]; exact Fk|]. split; [exact End|].
      assert (Old : forall name, sm_find name m <> None -> sm_find name m' = sm_find name m).
      { intros name K. rewrite H4 by (apply Fk; now left). apply sm_find_set_other. intros ->. contradiction. }
      split; [exact Old|]. split.
      { intros d1 a1 [[= <- <-]|K].
        - split; [exact Nf|]. rewrite H4 by (apply Fk; now right). apply sm_find_set_same.
        - destruct (H5 _ _ K) as [K1 K2]. split; [|exact K2]. destruct (sm_find (od_key d1 []) m) eqn:E; [|reflexivity].
          exfalso. assert (Q : sm_find (od_key d1 []) m <> None) by (rewrite E; discriminate).
          assert (Q2 : sm_find (od_key d1 []) (sm_set (od_key d []) (mk_vv a true (Some (od_sem d))) m) <> None) by (apply Fk; now left). contradiction. }
      split.
      { intros name K1 K2. apply H6; [|intros d1 a1 K; apply (K2 d1 a1); now right]. rewrite sm_find_set_other; [exact K1|].
        intros ->. now apply (K2 d a); [left|]. }
      split; [intros Hr m0; destruct (Req m0) as (m1 & ->); now apply H7|].
      intros T code' t t' Hm. apply Ans in Hm as (t1 & K1 & K2). rewrite Unf, K1. now apply H8.
    + split; [now apply as_none|]. split; [exact End|]. split; [exact H4|]. split.
      { intros d1 a1 [[=]|K]. now apply H5. }
      split; [intros name K1 K2; apply H6; [exact K1|]; intros d1 a1 K; apply (K2 d1 a1); now right|].
      split; [intros Hr m0; destruct (Req m0) as (m1 & ->); now apply H7|].
      intros T code' t t' Hm. apply Ans in Hm as (t1 & K1 & K2). rewrite Unf, K1. now apply H8.
Qed.
End Defaults.

Lemma made_app {S} (code : user_code S) utf8 s h1 s1 h2 s2 :
  made code utf8 s h1 s1 -> made code utf8 s1 h2 s2 -> made code utf8 s (h1 ++ h2) s2.
Proof. induction 1; intros K; [exact K|eapply ma_parse; eauto|eapply ma_default; eauto]. Qed.

Lemma made_app_inv {S} (code : user_code S) utf8 h1 h2 s s2 :
  made code utf8 s (h1 ++ h2) s2 -> exists s1, made code utf8 s h1 s1 /\ made code utf8 s1 h2 s2.
Proof.
  revert s. induction h1 as [|c h1 IH]; intros s H; [exists s; split; [constructor|exact H]|].
  cbn [app] in H. remember (c :: h1 ++ h2) as h eqn:Eh. destruct H as [|s d n b t a r s1 h s2 H1 H2|s d r s1 h s2 H1 H2]; [discriminate| |];
  injection Eh as <- ->; apply IH in H2 as (s3 & K1 & K2); exists s3; (split; [|exact K2]).
  - eapply ma_parse; eauto.
  - eapply ma_default; eauto.
Qed.

Lemma plain_options ds prefix final utf8 : forall opts m nf,
  ustore_options plain_code ds prefix final utf8 opts m nf tt =
  (let '(m', nf', r) := store_options ds prefix final utf8 opts m nf in (tt, m', nf', r)).
Proof.
  induction opts as [|o opts IH]; intros m nf; [reflexivity|]. cbn [ustore_options store_options].
  destruct (is_empty (po_key o)); [apply IH|]. destruct (po_unreg o); [apply IH|]. destruct (ss_mem (po_key o) final); [apply IH|].
  destruct (find ds (po_key o) false false false) as [d|e|u|]; try reflexivity. cbn [plain_code us_parse].
  match goal with |- context [vs_parse ?a ?b ?c ?d] => destruct (vs_parse a b c d) as [a0 [[]|?|?|]] end; try reflexivity. apply IH.
Qed.

Lemma plain_defaults prefix : forall ds m req,
  ustore_defaults plain_code ds prefix m req tt =
  (let '(m', req') := store_defaults ds prefix m req in (tt, m', req', Ok tt)).
Proof.
  induction ds as [|d ds IH]; intros m req; [reflexivity|]. cbn [ustore_defaults store_defaults]. cbv zeta.
  destruct (is_empty (od_key d [])); [apply IH|]. destruct (sm_mem (od_key d []) m); [apply IH|]. cbn [plain_code us_default].
  destruct (vs_default (od_sem d)); apply IH.
Qed.

Lemma made_det {S} (code : user_code S) utf8 s h s1 s2 : made code utf8 s h s1 -> made code utf8 s h s2 -> s1 = s2.
Proof.
  intros H. revert s2. induction H as [|s d n b t a r s1 h s2 H1 H2 IH|s d r s1 h s2 H1 H2 IH]; intros s3 K; inversion K; subst; try reflexivity.
  - apply IH. congruence.
  - apply IH. congruence.
Qed.

(** How the calls for the options end *)
Definition proper (ds : list option_description) (h : list user_call) (later : list popt) : Prop :=
  (forall h1 c h2, h = h1 ++ c :: h2 -> h2 <> [] -> returned c)
  /\ (Forall returned h -> later = [] \/ exists o rest, later = o :: rest /\ forall d, find ds (po_key o) false false false <> Ok d).

Lemma proper_tail ds c h later : proper ds (c :: h) later -> returned c -> proper ds h later.
Proof.
  intros [H1 H2] Hc. split.
  - intros h1 c1 h2 -> K. now apply (H1 (c :: h1) c1 h2).
  - intros K. apply H2. now constructor.
Qed.

Lemma proper_stop ds c h later : proper ds (c :: h) later -> ~ returned c -> h = [].
Proof. intros [H1 _] Hc. destruct h as [|c1 h]; [reflexivity|]. exfalso. apply Hc. apply (H1 [] c (c1 :: h)); [reflexivity|discriminate]. Qed.

Definition continued_in (m : smap variable_value) (h : list user_call) : Prop :=
  forall h1 d n b t a r h2, h = h1 ++ UParse d n b t a r :: h2 -> b = latest_in m h1 n.

Lemma continued_tail m d n b t a r h : continued_in m (UParse d n b t a r :: h) -> continued_in (sm_set n (mk_vv a false None) m) h.
Proof.
  intros H h1 d1 n1 b1 t1 a1 r1 h2 ->. rewrite <- (latest_cons m d n b t a r h1 n1 None). eapply (H (UParse d n b t a r :: h1)). reflexivity.
Qed.

Lemma parses_unique {S} (code : user_code S) ds utf8 : forall taken1 taken2 later1 later2 m h1 h2 s s1 s2,
  taken1 ++ later1 = taken2 ++ later2 ->
  Forall2 (call_for ds) taken1 h1 -> Forall2 (call_for ds) taken2 h2 ->
  continued_in m h1 -> continued_in m h2 -> proper ds h1 later1 -> proper ds h2 later2 ->
  made code utf8 s h1 s1 -> made code utf8 s h2 s2 -> h1 = h2 /\ later1 = later2.
Proof.
  induction taken1 as [|o taken1 IH]; intros taken2 later1 later2 m h1 h2 s s1 s2 E F1 F2 C1 C2 P1 P2 M1 M2.
  - inversion F1; subst. destruct taken2 as [|o2 taken2]; [inversion F2; subst; auto|]. exfalso.
    destruct P1 as [_ P1]. destruct (P1 (Forall_nil _)) as [->|(o & rest & -> & K)]; [discriminate|]. injection E as <- _.
    inversion F2 as [|? ? ? ? (d & b & a & r & _ & Hf) _]; subst. now apply (K d).
  - destruct taken2 as [|o2 taken2].
    { exfalso. inversion F2; subst. destruct P2 as [_ P2]. destruct (P2 (Forall_nil _)) as [->|(o2 & rest & -> & K)]; [discriminate|].
      injection E as <- _. inversion F1 as [|? ? ? ? (d & b & a & r & _ & Hf) _]; subst. now apply (K d). }
    injection E as <- E. inversion F1 as [|? ? ? h1' (d & b & a & r & -> & Hf) F1']; subst.
    inversion F2 as [|? ? ? h2' (d2 & b2 & a2 & r2 & -> & Hf2) F2']; subst. rewrite Hf in Hf2. injection Hf2 as <-.
    assert (b = b2) as <-.
    { rewrite (C1 [] d (po_key o) b (po_value o) a r h1' eq_refl). symmetry. exact (C2 [] d (po_key o) b2 (po_value o) a2 r2 h2' eq_refl). }
    inversion M1 as [|? ? ? ? ? ? ? s3 ? ? K1 K2|]; subst. inversion M2 as [|? ? ? ? ? ? ? s4 ? ? L1 L2|]; subst.
    rewrite K1 in L1. injection L1 as <- <- <-.
    assert (D : r = Ok tt \/ r <> Ok tt) by (destruct r as [[]|?|?|]; [now left|right; discriminate..]).
    destruct D as [->|D].
    + apply (proper_tail) in P1; [|reflexivity]. apply proper_tail in P2; [|reflexivity].
      apply continued_tail in C1. apply continued_tail in C2.
      destruct (IH taken2 later1 later2 _ h1' h2' s3 s1 s2 E F1' F2' C1 C2 P1 P2 K2 L2) as [-> ->]. auto.
    + apply proper_stop in P1; [|exact D]. apply proper_stop in P2; [|exact D]. subst h1' h2'. inversion F1'; subst. inversion F2'; subst. auto.
Qed.

Lemma asks_unique {S} (code : user_code S) utf8 : forall ds present h1 h2 s s1 s2,
  asks present ds h1 -> asks present ds h2 -> made code utf8 s h1 s1 -> made code utf8 s h2 s2 -> h1 = h2.
Proof.
  induction ds as [|d ds IH]; intros present h1 h2 s s1 s2 A1 A2 M1 M2.
  - inversion A1; inversion A2; now subst.
  - assert (Eq : forall r1 r2 k1 k2, made code utf8 s (UDefault d r1 :: k1) s1 -> made code utf8 s (UDefault d r2 :: k2) s2 ->
      r1 = r2 /\ exists s3, made code utf8 s3 k1 s1 /\ made code utf8 s3 k2 s2).
    { intros r1 r2 k1 k2 N1 N2. inversion N1; subst. inversion N2; subst.
      match goal with H1 : us_default _ _ = _, H2 : us_default _ _ = _ |- _ => rewrite H1 in H2; injection H2 as <- <- end. split; eauto. }
    inversion A1 as [|? ? h1' K1 K2|? ? h1' K1 K2 K3|? ? a h1' K1 K2 K3|? ? r K1 K2 K3]; subst;
    inversion A2 as [|? ? h2' L1 L2|? ? h2' L1 L2 L3|? ? a2 h2' L1 L2 L3|? ? r2 L1 L2 L3]; subst; try tauto.
    + eapply IH; eauto.
    + destruct (Eq _ _ _ _ M1 M2) as (_ & s3 & N1 & N2). f_equal. eapply IH; eauto.
    + now destruct (Eq _ _ _ _ M1 M2) as ([=] & _).
    + destruct (Eq _ _ _ _ M1 M2) as (<- & _). now destruct (L3 None).
    + now destruct (Eq _ _ _ _ M1 M2) as ([=] & _).
    + destruct (Eq _ _ _ _ M1 M2) as ([= <-] & s3 & N1 & N2). f_equal. eapply IH; eauto.
    + destruct (Eq _ _ _ _ M1 M2) as (<- & _). now destruct (L3 (Some a)).
    + destruct (Eq _ _ _ _ M1 M2) as (-> & _). now destruct (K3 None).
    + destruct (Eq _ _ _ _ M1 M2) as (-> & _). now destruct (K3 (Some a2)).
    + destruct (Eq _ _ _ _ M1 M2) as (-> & _). reflexivity.
Qed.

Lemma app_last_split {A} (l : list A) x h1 c h2 : l ++ [x] = h1 ++ c :: h2 -> h2 <> [] -> In c l.
Proof.
  intros E K. destruct (exists_last K) as (h2' & y & ->). rewrite app_comm_cons, app_assoc in E. apply app_inj_tail in E as [-> _].
  apply in_or_app. right. now left.
Qed.

Lemma call_names ds os h : Forall2 (call_for ds) os h -> parsed_names h = map po_key os.
Proof. induction 1 as [|o c os h (d & b & a & r & -> & _) H IH]; [reflexivity|]. cbn [map]. rewrite <- IH. reflexivity. Qed.

Lemma ustore_spec {S} (code : user_code S) p ds vm utf8 s s' vm' r :
  pr_desc p = Some ds -> ustore code p vm utf8 s = (s', vm', r) ->
  exists parses defaults later,
    made code utf8 s (parses ++ defaults) s' /\ carried_out ds p vm parses defaults later
    /\ ((later = [] /\ Forall returned parses /\ defaults_ending defaults r /\ filled ds vm vm' parses defaults /\ decided ds vm vm' parses
         /\ (r = Ok tt -> vm_required vm' = vm_required (fst (store (mk_parsed [] (Some ds) (pr_prefix p)) vm utf8))))
        \/ (defaults = [] /\ r <> Ok tt /\ vm_final vm' = vm_final vm /\ vm_required vm' = vm_required vm
            /\ (exists taken, due p vm = taken ++ later /\ Forall2 (call_for ds) taken parses /\ ending ds (pr_prefix p) parses taken later r)
            /\ (forall name, ~ In name (parsed_names parses) -> entry vm' name = entry vm name)
            /\ (settled r -> forall name, In name (parsed_names parses) -> exists sem, entry vm' name = Some (mk_vv (latest vm parses name) false sem))))
    /\ (forall T (code' : user_code T) t t', made code' utf8 t (parses ++ defaults) t' -> ustore code' p vm utf8 t = (t', vm', r)).
Proof.
  intros Hp H. unfold ustore in H. rewrite Hp in H.
  destruct (ustore_options code ds (pr_prefix p) (vm_final vm) utf8 (pr_options p) (vm_map vm) [] s) as [[[s1 m] nf] r1] eqn:Eo.
  destruct (options_spec _ _ _ _ _ _ _ _ _ _ _ _ _ Eo) as (h & os1 & later & H1 & H2 & H3 & H4 & H5 & H6 & H7 & H8 & H9).
  assert (Stop : r1 <> Ok tt -> (s', vm', r) = (s1, mk_vm m (vm_final vm) (vm_required vm), r1) -> exists parses defaults later,
    made code utf8 s (parses ++ defaults) s' /\ carried_out ds p vm parses defaults later
    /\ ((later = [] /\ Forall returned parses /\ defaults_ending defaults r /\ filled ds vm vm' parses defaults /\ decided ds vm vm' parses
         /\ (r = Ok tt -> vm_required vm' = vm_required (fst (store (mk_parsed [] (Some ds) (pr_prefix p)) vm utf8))))
        \/ (defaults = [] /\ r <> Ok tt /\ vm_final vm' = vm_final vm /\ vm_required vm' = vm_required vm
            /\ (exists taken, due p vm = taken ++ later /\ Forall2 (call_for ds) taken parses /\ ending ds (pr_prefix p) parses taken later r)
            /\ (forall name, ~ In name (parsed_names parses) -> entry vm' name = entry vm name)
            /\ (settled r -> forall name, In name (parsed_names parses) -> exists sem, entry vm' name = Some (mk_vv (latest vm parses name) false sem))))
    /\ (forall T (code' : user_code T) t t', made code' utf8 t (parses ++ defaults) t' -> ustore code' p vm utf8 t = (t', vm', r))).
  { intros Hr [= -> -> ->]. exists h, [], later. rewrite app_nil_r. split; [exact H1|]. split.
    { split; [exists os1; split; [exact H2|exact H3]|]. split; [exact H4|]. rewrite app_nil_r.
      destruct H5 as [(K & _)|[(h1 & os0 & o & d & b & a & r0 & K1 & K2 & K3 & K4 & K5)|(o & rest & K1 & K2 & K3)]]; [contradiction| |].
      - split.
        + intros g1 c g2 E N. rewrite K1 in E. rewrite Forall_forall in K3. apply K3. eapply app_last_split; eauto.
        + right. left. split; [reflexivity|]. rewrite K1. apply Exists_exists. eexists. split; [apply in_or_app; right; now left|exact K4].
      - split; [intros g1 c g2 -> _; rewrite Forall_forall in K2; apply K2; apply in_or_app; right; now left|].
        right. right. split; [reflexivity|]. split; [exact K2|]. exists o, rest. split; [exact K1|]. intros d E. unfold failed_to_find in K3.
        now rewrite E in K3. }
    split.
    { right. split; [reflexivity|]. split; [exact Hr|]. split; [reflexivity|]. split; [reflexivity|]. split; [exists os1; auto|]. split; [exact H6|exact H7]. }
    intros T code' t t' Hm. unfold ustore. rewrite Hp, (H9 _ _ _ _ Hm). destruct r1 as [[]|?|?|]; [now destruct Hr|reflexivity..]. }
  destruct r1 as [[]|e|u|]; [|apply Stop; [discriminate|symmetry; exact H]..]. clear Stop.
  destruct (ustore_defaults code ds (pr_prefix p) m (vm_required vm) s1) as [[[s2 m2] req] r2] eqn:Ed. injection H as <- <- <-.
  destruct (defaults_spec _ utf8 _ _ _ _ _ _ _ _ _ Ed) as (g & G1 & G2 & G3 & G4 & G5 & G6 & G7 & G8).
  destruct H5 as [(_ & -> & Hr)|[(h1 & os0 & o & d & b & a & r0 & K1 & K2 & K3 & K4 & K5)|(o & rest & K1 & K2 & K3)]].
  2:{ exfalso. destruct r0 as [[]|?|?|]; [now apply K4|discriminate..]. }
  2:{ exfalso. unfold failed_to_find in K3. destruct (find ds (po_key o) false false false); [contradiction|discriminate..]. }
  rewrite app_nil_r in H2. specialize (H8 eq_refl).
  assert (Pres : forall k, sm_find k m <> None <-> entry vm k <> None \/ In k (parsed_names h)).
  { intros k. destruct (in_dec (list_eq_dec ascii_dec) k (parsed_names h)) as [K|K].
    - destruct (H8 k K) as (d & _ & ->). split; [now right|discriminate].
    - rewrite H6 by exact K. unfold entry. tauto. }
  exists h, g, []. split; [eapply made_app; eauto|]. split.
  { split; [exists os1; split; [rewrite app_nil_r; exact H2|exact H3]|]. split; [exact H4|]. split.
    - intros h1 c h2 E N. destruct G3 as [(_ & Gr)|(g1 & d & r0 & -> & Gr & _)].
      + assert (Ha : Forall returned (h ++ g)) by (apply Forall_app; auto). rewrite Forall_forall in Ha. apply Ha. rewrite E. apply in_or_app.
        right. now left.
      + assert (Ha : Forall returned (h ++ g1)) by (apply Forall_app; auto). rewrite Forall_forall in Ha. apply Ha.
        rewrite app_assoc in E. eapply app_last_split; eauto.
    - left. split; [reflexivity|]. split; [exact Hr|]. eapply asks_iff; [|exact G2]. exact Pres. }
  split.
  { left. split; [reflexivity|]. split; [exact Hr|]. split; [exact G3|]. split.
    { intros name. unfold entry. cbn [vm_map]. split.
      - intros K. destruct (H8 name K) as (d & K1 & K2). exists d. split; [exact K1|]. rewrite G4; [exact K2|]. rewrite K2. discriminate.
      - split.
        + intros K1 K2. rewrite G4; [now apply H6|]. rewrite H6; assumption.
        + intros K1 K2. assert (K3 : sm_find name m = None) by now rewrite H6. split.
          * intros d a K4 <-. now apply (G5 d a).
          * intros K4. now apply G6. }
    split.
    { intros name. cbn [vm_final]. rewrite ss_insert_all_In. rewrite (options_final _ _ _ _ _ _ _ _ _ _ _ _ _ Eo eq_refl name). rewrite (call_names _ _ _ H3).
      change (filter (duef (vm_final vm)) (pr_options p)) with (due p vm) in *. change (filter (duef (vm_final vm)) (pr_options p)) with (due p vm) in H2.
      rewrite H2, in_map_iff. split.
      - intros [[[]|(o & d & K1 & K2 & K3)]|K]; [|now left]. right. split; eauto.
      - intros [K|((o & K1 & K2) & d & K3)]; [now right|]. left. right. exists o, d. auto. }
    intros Hok. cbn [vm_required store pr_desc pr_prefix pr_options store_options fst]. symmetry.
    pose proof (G7 Hok (vm_map vm)) as K. destruct (store_defaults ds (pr_prefix p) (vm_map vm) (vm_required vm)) as [m3 req3]. exact K. }
  intros T code' t t' Hm. apply made_app_inv in Hm as (t1 & M1 & M2). unfold ustore. rewrite Hp, (H9 _ _ _ _ M1), (G8 _ _ _ _ M2). reflexivity.
Qed.

Lemma carried_proper ds p vm parses defaults later : carried_out ds p vm parses defaults later -> proper ds parses later.
Proof.
  intros (_ & _ & H1 & H2). split.
  - intros h1 c h2 -> N. apply (H1 h1 c (h2 ++ defaults)); [now rewrite <- app_assoc|]. destruct h2; [contradiction|discriminate].
  - intros Hr. destruct H2 as [(-> & _)|[(_ & K)|(_ & _ & K)]]; [now left| |now right].
    exfalso. apply Exists_exists in K as (c & K1 & K2). rewrite Forall_forall in Hr. apply K2. now apply Hr.
Qed.

Lemma carried_unique {S} (code : user_code S) ds p vm utf8 s P1 D1 L1 s1 P2 D2 L2 s2 :
  made code utf8 s (P1 ++ D1) s1 -> carried_out ds p vm P1 D1 L1 ->
  made code utf8 s (P2 ++ D2) s2 -> carried_out ds p vm P2 D2 L2 -> P1 = P2 /\ D1 = D2 /\ L1 = L2 /\ s1 = s2.
Proof.
  intros M1 C1 M2 C2. pose proof (carried_proper _ _ _ _ _ _ C1) as Q1. pose proof (carried_proper _ _ _ _ _ _ C2) as Q2.
  destruct (made_app_inv _ _ _ _ _ _ M1) as (t1 & A1 & B1). destruct (made_app_inv _ _ _ _ _ _ M2) as (t2 & A2 & B2).
  destruct C1 as ((taken1 & E1 & F1) & K1 & R1 & W1). destruct C2 as ((taken2 & E2 & F2) & K2 & R2 & W2).
  assert (E : taken1 ++ L1 = taken2 ++ L2) by congruence.
  destruct (@parses_unique S code ds utf8 taken1 taken2 L1 L2 (vm_map vm) P1 P2 s t1 t2 E F1 F2 K1 K2 Q1 Q2 A1 A2) as [-> ->].
  assert (D1 = D2) as ->.
  { destruct W1 as [(-> & Hr & W1)|[(-> & W1)|(-> & Hr & o & rest & -> & W1)]]; destruct W2 as [(V & Hr2 & W2)|[(-> & W2)|(-> & Hr2 & o2 & rest2 & V & W2)]];
    try reflexivity; try discriminate.
    - assert (t1 = t2) as -> by exact (made_det _ _ _ _ _ _ A1 A2). exact (asks_unique _ _ _ _ _ _ _ _ _ W1 W2 B1 B2).
    - exfalso. apply Exists_exists in W2 as (c & V1 & V2). rewrite Forall_forall in Hr. apply V2. now apply Hr.
    - exfalso. apply Exists_exists in W1 as (c & V1 & V2). rewrite Forall_forall in Hr2. apply V2. now apply Hr2. }
  split; [reflexivity|]. split; [reflexivity|]. split; [reflexivity|]. exact (made_det _ _ _ _ _ _ M1 M2).
Qed.
