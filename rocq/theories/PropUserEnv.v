(** C114: [parse_environment] and name mappers with a state. *)

From Coq Require Import List Ascii String NArith ZArith Bool Arith Lia.
From Verif Require Import Base BaseFacts Errors Spec Values OptDesc Cmdline Parsers Streams SpecConfig UserCode UserEnv SpecUserEnv
  UserEnvFacts Samples.
Import ListNotations.

(** A mapper that does not change the environment is asked about every variable once, in the order of the array; each answer
    that is not empty makes an option.  If it throws, nothing more happens. *)
Theorem C114_asked : forall {St} (view : St -> environment) (f : user_mapper St) ds vars beyond fuel s,
  leaves_alone view f -> Forall (fun nv => without c_eq (fst nv)) vars ->
  view s = env_array vars beyond -> List.length vars < fuel ->
  (forall s' r, uparse_environment view f fuel ds s = (s', Ok r) <->
     exists answers, asked f s (map fst vars) s' answers /\ r = mk_parsed (env_named answers (map snd vars)) (Some ds) 0)
  /\ (forall s' e, uparse_environment view f fuel ds s = (s', Throw e) <->
     exists done n v todo s1 answers, vars = done ++ (n, v) :: todo /\ asked f s (map fst done) s1 answers /\ f s1 n = (s', inr e)).
Proof.
  intros St view f ds vars beyond fuel s Hl Hn Hv Hf.
  pose proof (loop_asked view f Hl vars beyond [] fuel s Hn Hv Hf) as H. cbn [List.length] in H.
  unfold uparse_environment, sbind. destruct H as [(s1 & answers & Ha & E)|(done & n & v & todo & s1 & answers & s2 & e & Ev & Ha & He & E)];
    rewrite E; unfold lift; split.
  - intros s' r. split; [intros [= <- <-]; eauto|]. intros (a2 & Ha2 & ->). destruct (asked_fun f _ _ _ _ Ha _ _ Ha2) as (-> & ->). reflexivity.
  - intros s' e. split; [discriminate|]. intros (done & n & v & todo & t & a2 & -> & Ha2 & He). exfalso.
    rewrite map_app in Ha. cbn [map fst] in Ha. clear - Ha Ha2 He. revert answers Ha.
    induction Ha2 as [|s n0 t1 a ns t2 a2 E _ IH]; intros answers Ha; cbn [app] in Ha; inversion Ha; subst; [congruence|].
    match goal with H1 : f s n0 = (_, inl _) |- _ => rewrite E in H1; injection H1 as <- <- end. eauto.
  - intros s' r. split; [discriminate|]. intros (a2 & Ha2 & _). exfalso. subst vars. rewrite map_app in Ha2. cbn [map fst] in Ha2.
    clear - Ha Ha2 He. revert a2 Ha2.
    induction Ha as [|s n0 t1 a ns t2 a2 E _ IH]; intros answers Ha; cbn [app] in Ha; inversion Ha; subst; [congruence|].
    match goal with H1 : f s n0 = (_, inl _) |- _ => rewrite E in H1; injection H1 as <- <- end. eauto.
  - intros s' e'. split; [intros [= <- <-]; eauto 12|]. intros (done2 & n2 & v2 & todo2 & t & a2 & Ev2 & Ha2 & He2).
    subst vars. clear - Ha Ha2 He He2 Ev2. revert done2 a2 Ev2 Ha2.
    remember (map fst done) as ns eqn:Ens. revert done Ens.
    induction Ha as [|s n0 t1 a ns t2 a2 E Ha IH]; intros [|(x & y) done] Ens done2 b Ev2 Ha2; try discriminate.
    + destruct done2 as [|(x & y) done2]; cbn in Ev2.
      * injection Ev2 as <- <- _. inversion Ha2; subst. congruence.
      * injection Ev2 as <- <- _. inversion Ha2; subst. congruence.
    + injection Ens as -> ->. destruct done2 as [|(x2 & y2) done2]; cbn in Ev2; injection Ev2 as <- <- Ev2.
      * inversion Ha2; subst. congruence.
      * inversion Ha2; subst. match goal with H1 : f s _ = (_, inl _) |- _ => rewrite E in H1; injection H1 as <- <- end. eapply IH; eauto.
Qed.
Print Assumptions C114_asked.

(** A mapper without a state behaves as in C35 and C80, whatever the environment. *)
Theorem C114_stateless : forall {St} (view : St -> environment) ds g fuel s,
  match view s with Some a => List.length a | None => 0 end < fuel ->
  uparse_environment view (fun s n => (s, inl (g n))) fuel ds s = (s, parse_environ (view s) ds (fun n => Ok (g n))).
Proof.
  intros St view ds g fuel s Hf. unfold uparse_environment, parse_environ, sbind.
  rewrite (loop_pure view (view s) g fuel 0 s eq_refl). cbn [fst snd].
  assert (Hmore : forall k m a i, List.length a < k + i -> List.length a < m + i -> i <= List.length a ->
     env_loop k (Some a) i (fun n => Ok (g n)) = env_loop m (Some a) i (fun n => Ok (g n))).
  { clear. induction k as [|k IH]; intros m a i Hk Hm Hi; [lia|]. destruct m as [|m]; [lia|]. cbn [env_loop].
    destruct (env_get (Some a) i) as [[p|]| | |] eqn:E; try reflexivity. cbn [bind].
    assert (S i <= List.length a).
    { cbn in E. destruct (nth_error a i) eqn:En; [|discriminate]. apply Nat.le_succ_l, nth_error_Some. congruence. }
    rewrite (IH m a (S i)); [reflexivity|lia|lia|lia]. }
  destruct (view s) as [a|]; [|destruct fuel; [lia|reflexivity]].
  rewrite (Hmore fuel (S (List.length a)) a 0); [|lia|lia|lia].
  destruct (env_loop _ _ _ _); reflexivity.
Qed.
Print Assumptions C114_stateless.

(** A mapper that changes the environment: after the first variable the call goes on with what is in the array then, except
    for its first place. *)
Theorem C114_changed : forall {St} (view : St -> environment) (f : user_mapper St) fuel s a n v s1 name,
  view s = Some (Some (n ++ [c_eq] ++ v) :: a) -> without c_eq n -> f s n = (s1, inl name) ->
  forall ds s2 r, uparse_environment view f (S fuel) ds s = (s2, Ok r) <->
    exists opts, uparse_environment (fun t => env_skip 1 (view t)) f fuel ds s1 = (s2, Ok (mk_parsed opts (Some ds) 0))
      /\ r = mk_parsed ((if is_empty name then [] else [env_option name v]) ++ opts) (Some ds) 0.
Proof.
  intros St view f fuel s a n v s1 name Hv Hn Hf ds s2 r. unfold uparse_environment. cbn [uenv_loop].
  unfold sbind, look, ask_name, lift. rewrite Hv. cbn [env_get nth_error]. rewrite (ConfigFacts.env_split_var n v Hn).
  cbn [bind fst snd]. rewrite Hf. rewrite (loop_skip view f 1 fuel 0 s1). cbn [Nat.add].
  destruct (uenv_loop view f fuel 1 s1) as [t [opts| | |]]; (split; [intros H|intros (o & H & E)]); try discriminate.
  - injection H as <- <-. exists opts. auto.
  - injection H as -> <-. subst r. reflexivity.
Qed.
Print Assumptions C114_changed.

(** Such a mapper can make the call miss variables: removing the variable it is asked about moves the others to the front, as
    [unsetenv] does. *)
Definition unset (a : list (option str)) (n : str) : list (option str) :=
  filter (fun x => match x with Some s => negb (found_at_0 (n ++ [c_eq]) s) | None => true end) a
  ++ map (fun _ => None) (filter (fun x => match x with Some s => found_at_0 (n ++ [c_eq]) s | None => false end) a).

Theorem C114_every_variable_refuted : ~ forall (f : user_mapper (environment * list str)) vars fuel ds s s' r,
  (forall t n, snd (fst (f t n)) = snd t ++ [n]) -> fst s = env_array vars [] -> snd s = [] ->
  Forall (fun nv => without c_eq (fst nv)) vars -> List.length vars < fuel ->
  uparse_environment fst f fuel ds s = (s', Ok r) -> snd s' = map fst vars.
Proof.
  intros H.
  specialize (H (fun t n => ((match fst t with Some a => Some (unset a n) | None => None end, snd t ++ [n]), inl n))
    [($"A", $"1"); ($"B", $"2"); ($"C", $"3")] 9 []
    (env_array [($"A", $"1"); ($"B", $"2"); ($"C", $"3")] [], [])).
  specialize (H _ _ ltac:(reflexivity) ltac:(reflexivity) ltac:(reflexivity)
    ltac:(repeat constructor; cbn; intros [E|[]]; discriminate E) ltac:(cbn; lia) ltac:(reflexivity)).
  discriminate H.
Qed.
Print Assumptions C114_every_variable_refuted.

(** A mapper that adds a variable whenever it is asked keeps the call going for ever. *)
Theorem C114_ends_refuted : exists (view : nat -> environment) (f : user_mapper nat),
  forall fuel ds, snd (uparse_environment view f fuel ds 0) = NoFuel.
Proof.
  exists (fun k => Some (repeat (Some $"A=1") (S k) ++ [None])), (fun k _ => (S k, inl [])). intros fuel ds.
  assert (H : forall fuel i, snd (uenv_loop (fun k => Some (repeat (Some $"A=1") (S k) ++ [None])) (fun k _ => (S k, inl [])) fuel i i) = NoFuel).
  { clear. induction fuel as [|fuel IH]; intros i; [reflexivity|]. cbn [uenv_loop]. unfold sbind at 1, look, env_get.
    rewrite nth_error_app1 by (rewrite repeat_length; lia).
    assert (E : nth_error (repeat (Some $"A=1") (S i)) i = Some (Some $"A=1")).
    { clear. generalize (Some $"A=1"). intros x. induction i as [|i IH]; [reflexivity|exact IH]. }
    rewrite E. change (env_split $"A=1") with (Ok ($"A", $"1")). cbn [bind]. unfold sbind at 1, ask_name. unfold sbind.
    specialize (IH (S i)). destruct (uenv_loop _ _ fuel (S i) (S i)) as [t [x| | |]]; cbn [snd] in IH |- *; try discriminate. reflexivity. }
  specialize (H fuel 0). unfold uparse_environment, sbind. destruct (uenv_loop _ _ fuel 0 0) as [t [x| | |]]; cbn [snd] in H |- *; try discriminate. reflexivity.
Qed.
Print Assumptions C114_ends_refuted.

(** A mapper that counts its calls and numbers the variables. *)
Example C114_ex :
  let vars := [($"A", $"1"); ($"B", $"x=y"); ($"C", [])] in
  let view := fun _ : nat => env_array vars [] in
  let f : user_mapper nat := fun k n => (S k, inl (if Nat.eqb k 1 then [] else n)) in
  leaves_alone view f /\ Forall (fun nv => without c_eq (fst nv)) vars
  /\ uparse_environment view f 4 [] 0 = (3, Ok (mk_parsed [env_option $"A" $"1"; env_option $"C" []] (Some []) 0))
  /\ asked f 0 (map fst vars) 3 [$"A"; []; $"C"]
  /\ (let g : user_mapper nat := fun k n => (S k, if Nat.eqb k 1 then inr (plain_exn too_many_positional_options_error) else inl n) in
      uparse_environment view g 4 [] 0 = (2, Throw (plain_exn too_many_positional_options_error))).
Proof.
  cbv zeta. split; [intros k n; reflexivity|]. split; [repeat constructor; cbn; intros [E|[]]; discriminate E|].
  split; [reflexivity|]. split; [repeat (econstructor; [reflexivity|]); constructor|reflexivity].
Qed.
