(** Proofs for C114. *)

From Coq Require Import List Ascii String NArith ZArith Bool Arith Lia.
From Verif Require Import Base BaseFacts Errors Spec Values OptDesc Cmdline Parsers Streams SpecConfig ConfigFacts UserCode UserEnv
  SpecUserEnv.
Import ListNotations.

Lemma nth_var (a b : list (option str)) x : nth_error (a ++ x :: b) (List.length a) = Some x.
Proof. rewrite nth_error_app2, Nat.sub_diag; [reflexivity|lia]. Qed.

Section Loop.
Context {St : Type} (view : St -> environment) (f : user_mapper St).
Hypothesis Hview : leaves_alone view f.

Lemma loop_asked : forall vars beyond before fuel s,
  Forall (fun nv => without c_eq (fst nv)) vars ->
  view s = Some (before ++ map Some (environ vars) ++ None :: beyond) -> List.length vars < fuel ->
  (exists s' answers, asked f s (map fst vars) s' answers
     /\ uenv_loop view f fuel (List.length before) s = (s', Ok (env_named answers (map snd vars))))
  \/ (exists done n v todo s1 answers s' e, vars = done ++ (n, v) :: todo /\ asked f s (map fst done) s1 answers
     /\ f s1 n = (s', inr e) /\ uenv_loop view f fuel (List.length before) s = (s', Throw e)).
Proof.
  induction vars as [|(n & v) vars IH]; intros beyond before fuel s Hn Hv Hf; (destruct fuel as [|fuel]; [cbn in Hf; lia|]).
  - left. exists s, []. split; [constructor|]. cbn [uenv_loop]. unfold sbind, look. rewrite Hv. cbn [map environ app].
    unfold env_get. cbn [environ map app]. rewrite nth_var. reflexivity.
  - inversion Hn as [|? ? Hn1 Hn2]; subst. cbn [fst] in Hn1.
    remember (uenv_loop view f (S fuel) (List.length before) s) as X eqn:EX. cbn [uenv_loop] in EX. unfold sbind at 1, look in EX.
    rewrite Hv in EX. unfold env_get at 1 in EX. cbn [environ map app fst snd] in *. rewrite nth_var in EX.
    change (n ++ c_eq :: v) with (n ++ [c_eq] ++ v) in EX. rewrite (env_split_var n v Hn1) in EX. cbn [bind fst snd] in EX.
    unfold sbind, ask_name, lift in EX. destruct (f s n) as [s1 [a|e]] eqn:Ef.
    + pose proof (Hview s n) as Hs. rewrite Ef in Hs. cbn [fst] in Hs.
      specialize (IH beyond (before ++ [Some (n ++ [c_eq] ++ v)]) fuel s1 Hn2).
      rewrite app_length in IH. cbn [List.length] in IH. rewrite Nat.add_1_r in IH.
      destruct IH as [(s' & answers & Ha & E)|(done & n' & v' & todo & s1' & answers & s' & e & -> & Ha & He & E)].
      * rewrite Hs, Hv, <- app_assoc. reflexivity.
      * cbn in Hf. lia.
      * left. exists s', (a :: answers). split; [econstructor; eauto|]. rewrite EX, E. reflexivity.
      * right. exists ((n, v) :: done), n', v', todo, s1', (a :: answers), s', e. split; [reflexivity|].
        split; [econstructor; eauto|]. split; [exact He|]. rewrite EX, E. reflexivity.
    + right. exists [], n, v, vars, s, [], s1, e. split; [reflexivity|]. split; [constructor|]. auto.
Qed.
End Loop.

Lemma asked_fun {St} (f : user_mapper St) s ns s1 a1 : asked f s ns s1 a1 -> forall s2 a2, asked f s ns s2 a2 -> s1 = s2 /\ a1 = a2.
Proof.
  induction 1 as [|s n s1 a ns s2 answers E _ IH]; intros t b H; inversion H; subst; auto.
  match goal with H1 : f s n = (_, inl _) |- _ => rewrite E in H1; injection H1 as <- <- end.
  match goal with H2 : asked f s1 ns _ _ |- _ => destruct (IH _ _ H2) as (-> & ->) end. auto.
Qed.

(** Skipping places of the array is moving the position. *)
Lemma env_get_skip env k i : env_get (env_skip k env) i = env_get env (k + i).
Proof.
  destruct env as [a|]; [|reflexivity]. cbn. revert a. induction k as [|k IH]; intros a; [reflexivity|].
  destruct a as [|x a]; cbn [skipn Nat.add nth_error]; [|exact (IH a)]. destruct i; reflexivity.
Qed.

Lemma loop_skip {St} (view : St -> environment) f k : forall fuel i s,
  uenv_loop (fun s => env_skip k (view s)) f fuel i s = uenv_loop view f fuel (k + i) s.
Proof.
  induction fuel as [|fuel IH]; intros i s; [reflexivity|]. cbn [uenv_loop]. unfold sbind at 1, look. rewrite env_get_skip.
  unfold sbind at 3, look. destruct (env_get (view s) (k + i)) as [[p|]| | |]; try reflexivity.
  unfold sbind at 1. unfold sbind at 2. destruct (ask_name f (fst p) s) as [s1 [name| | |]]; try reflexivity.
  unfold sbind. rewrite IH. replace (k + S i) with (S (k + i)) by lia. reflexivity.
Qed.

Lemma loop_pure {St} (view : St -> environment) env g : forall fuel i (s : St),
  view s = env -> uenv_loop view (fun s n => (s, inl (g n))) fuel i s = (s, env_loop fuel env i (fun n => Ok (g n))).
Proof.
  induction fuel as [|fuel IH]; intros i s H; [reflexivity|]. cbn [uenv_loop env_loop]. unfold sbind at 1, look. rewrite H.
  destruct (env_get env i) as [[p|]| | |]; try reflexivity. cbn [bind]. unfold sbind, ask_name, lift. rewrite (IH _ _ H).
  destruct (env_loop fuel env (S i) _) as [r| | |]; reflexivity.
Qed.
