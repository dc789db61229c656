(** * C120: iterators *)

From Coq Require Import Ascii String List NArith ZArith Bool Arith Lia.
From Verif Require Import Base Errors Spec BaseFacts Values OptDesc Positional Cmdline Parsers ConfigFile Streams SpecConfig ConfigFacts SpecStreams StreamFacts
  Iterators SpecIterators IteratorFacts.
Import ListNotations.

(** Two iterators are equal just if both are at the end. *)
Theorem C120_equal D V (a b : iter D V) : equal a b = true <-> at_end a /\ at_end b.
Proof. apply equal_iff. Qed.
Print Assumptions C120_equal.

(** So an iterator that is not at the end equals neither itself nor its copy: it is no forward iterator, although it is declared as
    one. *)
Theorem C120_forward_refuted W D V (get : D -> V -> W -> got W D V) v0 d0 its w i it :
  nth_error its i = Some it -> ~ at_end it ->
  equal it it = false
  /\ exists its' it', perform get v0 d0 (OCopy i) its w = (its', w, Ok tt)
                      /\ nth_error its' (List.length its) = Some it' /\ dereference it' = dereference it /\ equal it it' = false.
Proof.
  intros Hi He. assert (E : equal it it = false) by (unfold equal, at_end in *; now destruct (i_eof it)).
  split; [exact E|]. cbn [perform]. rewrite Hi. exists (its ++ [it])%list, it. split; [reflexivity|]. split; [|now split].
  rewrite nth_error_app2 by lia. now rewrite Nat.sub_diag.
Qed.
Print Assumptions C120_forward_refuted.

(** An iterator at the end stays there, whatever the program does with this and other iterators, short of assigning to it. *)
Theorem C120_end_stays W D V (get : D -> V -> W -> got W D V) v0 d0 ops its w its' w' r i it :
  run_its get v0 d0 ops its w = (its', w', r) -> leaves_alone i ops ->
  nth_error its i = Some it -> at_end it -> exists it', nth_error its' i = Some it' /\ at_end it'.
Proof. intros H Hl Hi He. eapply run_end; eauto. Qed.
Print Assumptions C120_end_stays.

(** Copying the range up to an iterator at the end gives the value of the first and then what the calls of [get] produce, in their
    order, until one of them finds the end; that last call's value is not among them. *)
Theorem C120_range W D V (get : D -> V -> W -> got W D V) first last w w' vs :
  at_end last ->
  (exists fuel, copy_range get fuel first last w = (w', Ok vs))
  <-> (at_end first /\ vs = [] /\ w' = w)
      \/ (~ at_end first /\ exists gs g,
            successive get (i_data first) (i_value first) w (gs ++ [g])%list w'
            /\ Forall (fun g => g_eof g = false) gs /\ g_eof g = true /\ vs = dereference first :: map (@g_value W D V) gs).
Proof.
  intros Hl. split.
  - intros [fuel H]. exact (range_sound get fuel _ _ _ _ _ Hl H).
  - intros [(He & -> & ->)|(He & gs & g & Hs & Hg & Hg2 & ->)].
    + exists 1. cbn [copy_range]. now replace (equal first last) with true by (symmetry; apply equal_iff; now split).
    + exists (S (S (List.length gs))). now apply (range_complete get gs g).
Qed.
Print Assumptions C120_range.

(** Copying a range whose last iterator is not at the end never ends well, not even if it is the empty range of twice the same
    iterator. *)
Theorem C120_other_last W D V (get : D -> V -> W -> got W D V) fuel first last w w' vs :
  ~ at_end last -> copy_range get fuel first last w <> (w', Ok vs).
Proof. apply never_ends. Qed.
Print Assumptions C120_other_last.

(** Iterators over the environment are independent: whatever the program does with any number of them, each stands on the variable
    whose number is that of its own increments, and behind the last variable it is at the end. *)
Theorem C120_environment vars behind ops ps :
  Forall (fun nv => without c_eq (fst nv)) vars -> tallies ops [] = Some ps ->
  exists its, run_its (env_iget (env_array vars behind)) ([], []) None ops [] tt = (its, tt, Ok tt) /\ Forall2 (stands vars) its ps.
Proof.
  intros Hv Ht. destruct (tallies_run vars behind Hv ops [] [] ps (Forall2_nil _) Ht) as (its & H & Hi). exists its. split; [exact H|].
  clear H Ht. induction Hi; constructor; auto. now apply inv_stands.
Qed.
Print Assumptions C120_environment.

(** The loop from a new iterator to a default one gives all variables, in their order. *)
Theorem C120_environment_all vars behind :
  Forall (fun nv => without c_eq (fst nv)) vars ->
  exists it, construct (env_iget (env_array vars behind)) ([], []) (Some 0) tt = (it, tt, Ok tt)
    /\ copy_range (env_iget (env_array vars behind)) (S (List.length vars)) it (default_iter ([], []) None) tt = (tt, Ok vars).
Proof.
  intros Hv. destruct (env_construct vars behind Hv) as (it & Hc & Hi). exists it. split; [exact Hc|]. clear Hc.
  enough (H : forall n k it, inv vars it (Some k) -> k <= List.length vars -> n = List.length vars - k ->
    copy_range (env_iget (env_array vars behind)) (S n) it (default_iter ([], []) None) tt = (tt, Ok (skipn k vars)))
    by (rewrite (H (List.length vars) 0 it Hi); [reflexivity|lia|lia]).
  clear it Hi. induction n as [|n IH]; intros k it Hi Hk Hn.
  - assert (k = List.length vars) by lia. subst k. destruct Hi as [_ Hs]. unfold stands in Hs.
    replace (nth_error vars (List.length vars)) with (@None (str * str)) in Hs by (symmetry; apply nth_error_None; lia).
    cbn [copy_range]. unfold equal, at_end in *. destruct Hs as [-> _]. cbn. now rewrite skipn_all.
  - destruct (nth_error vars k) as [nv|] eqn:E; [|apply nth_error_None in E; lia].
    destruct (env_increment vars behind Hv it k Hi) as (it' & Hinc & Hi'). destruct Hi as [_ Hs]. unfold stands in Hs. rewrite E in Hs.
    destruct Hs as [He Hval]. remember (S n) as m. cbn [copy_range].
    replace (equal it (default_iter ([], []) None)) with false by (unfold equal, at_end in *; now destruct (i_eof it)).
    rewrite Hinc. subst m. rewrite (IH (S k) it' Hi'); [|lia|lia]. cbn [bind]. rewrite Hval.
    f_equal. f_equal. clear -E. revert k E. induction vars as [|a l IHl]; intros [|k] E; try discriminate.
    + now injection E as <-.
    + exact (IHl k E).
Qed.
Print Assumptions C120_environment_all.

(** But the range between two iterators over the environment that are not at the end goes on for ever. *)
Theorem C120_environment_forever vars behind ops ps its i j k first last fuel :
  Forall (fun nv => without c_eq (fst nv)) vars -> tallies ops [] = Some ps ->
  run_its (env_iget (env_array vars behind)) ([], []) None ops [] tt = (its, tt, Ok tt) ->
  nth_error ps i = Some (Some k) -> nth_error its i = Some first -> nth_error its j = Some last -> ~ at_end last ->
  copy_range (env_iget (env_array vars behind)) fuel first last tt = (tt, NoFuel).
Proof.
  intros Hv Ht Hr Hp Hf _ Hl. destruct (tallies_run vars behind Hv ops [] [] ps (Forall2_nil _) Ht) as (its' & H & Hi).
  rewrite Hr in H. injection H as <-. destruct (nth_rel _ _ _ _ _ Hi Hp) as (it & E & Hk). rewrite Hf in E. injection E as <-.
  exact (env_forever vars behind Hv fuel first last k Hk Hl).
Qed.
Print Assumptions C120_environment_forever.

(** Incrementing a default iterator over the environment, or a copy of one, is undefined. *)
Theorem C120_default_undefined env v it w :
  it = default_iter v None -> snd (increment (env_iget env) it w) = Undef UB_dangling.
Proof. now intros ->. Qed.
Print Assumptions C120_default_undefined.

(** Parsing a config file is constructing an iterator on it and copying the range from it to a default one. *)
Theorem C120_config s ds au :
  parse_config_stream s ds au
  = match (let* allowed := cf_allowed ds [] in let* prefixes := cf_add_options [] allowed in Ok (allowed, prefixes)) with
    | Ok (allowed, prefixes) =>
        match construct (config_get allowed prefixes au) popt_new [] s with
        | (it, s1, Ok _) =>
            let (s2, r) := copy_range (config_get allowed prefixes au) (S (S (S (List.length (st_rest s))))) it (default_iter popt_new []) s1 in
            (s2, let* os := r in Ok (mk_parsed os (Some ds) 0))
        | (_, s1, Throw e) => (s1, Throw e)
        | (_, s1, Undef u) => (s1, Undef u)
        | (_, s1, NoFuel) => (s1, NoFuel)
        end
    | Throw e => (s, Throw e)
    | Undef u => (s, Undef u)
    | NoFuel => (s, NoFuel)
    end.
Proof.
  unfold parse_config_stream, parse_config_options. destruct (let* allowed := cf_allowed ds [] in _) as [[al pr]|e|u|]; try reflexivity.
  rewrite config_it_get. unfold construct, increment. cbn [i_data i_value i_eof].
  unfold config_get at 1 2 3 4 5. set (g := config_iget _ _ _ _ _ _ _).
  destruct (g_result g) as [[]|e|u|]; cbn [bind]; try reflexivity.
  change (mk_it (false || g_eof g) (g_value g) (g_data g))
    with (mk_it (i_eof (mk_iter (false || g_eof g) (g_value g) (g_data g))) (i_value (mk_iter (false || g_eof g) (g_value g) (g_data g)))
           (i_data (mk_iter (false || g_eof g) (g_value g) (g_data g)))).
  rewrite config_copy. destruct (copy_range _ _ _ _ _) as [s2 [os|e|u|]]; reflexivity.
Qed.
Print Assumptions C120_config.

(** An increment of a config file iterator that throws leaves the value and the end alone. *)
Theorem C120_config_throws allowed prefixes au it s it' s' e :
  increment (config_get allowed prefixes au) it s = (it', s', Throw e) -> dereference it' = dereference it /\ i_eof it' = i_eof it.
Proof.
  unfold increment. intros [= <- <- Hr].
  destruct (config_throw allowed prefixes au (S (S (List.length (st_rest s)))) (i_data it) (i_value it) s) as [He Hv];
    [unfold config_get in Hr; rewrite Hr; discriminate|].
  unfold dereference. cbn [i_value i_eof]. unfold config_get. rewrite He, Hv. now rewrite orb_false_r.
Qed.
Print Assumptions C120_config_throws.

(** An iterator over a config file whose increments throw can be incremented again: it goes on behind the line that was at fault, in
    the same section, so that an iterator on a file gives an option for each assignment and an exception for each line at fault, in the
    order of the lines.  Only if the first of them is an exception there is no iterator, since its constructor throws. *)
Theorem C120_resume ds allow allowed prefixes s t ls es rs :
  all_named ds -> parser_for ds allowed prefixes -> delivers c_nl s t -> lines_of t ls -> Forall2 line_is ls es ->
  recovers ds allow [] es rs ->
  match rs with
  | [] => exists it s1, construct (config_get allowed prefixes allow) popt_new [] s = (it, s1, Ok tt) /\ at_end it
  | inl o :: rs' =>
      exists it s1, construct (config_get allowed prefixes allow) popt_new [] s = (it, s1, Ok tt) /\ ~ at_end it /\ dereference it = o
        /\ exists fuel, drain (config_get allowed prefixes allow) fuel it s1 = Ok rs'
  | inr e :: rs' => exists it s1, construct (config_get allowed prefixes allow) popt_new [] s = (it, s1, Throw e)
  end.
Proof.
  intros Hn Hb Hd Hl He Hr. unfold parser_for in Hb.
  destruct (build_spec ds Hn) as [[_ (al & P & E & Hacc)]|[_ [msg E]]]; rewrite Hb in E; [|discriminate]. injection E as <- <-.
  apply (recover_construct ds allowed prefixes allow Hacc s es rs); [|exact Hr]. now rewrite (stream_lines s t ls Hd Hl).
Qed.
Print Assumptions C120_resume.

(** Such a reader exists for every file that has no section without a name. *)
Theorem C120_resume_total ds allow allowed prefixes es sec :
  all_named ds -> parser_for ds allowed prefixes -> ~ In (Section_ []) es -> exists rs, recovers ds allow sec es rs.
Proof.
  intros Hn Hb. unfold parser_for in Hb.
  destruct (build_spec ds Hn) as [[_ (al & P & E & Hacc)]|[_ [msg E]]]; rewrite Hb in E; [|discriminate]. injection E as <- <-.
  revert sec. induction es as [|e es IH]; intros sec Hs; [exists []; constructor|].
  assert (Hs' : ~ In (Section_ []) es) by (intros Hi; apply Hs; now right). destruct e as [|s|n v|s].
  - destruct (IH sec Hs') as [rs Hr]. exists rs. now constructor.
  - assert (Hne : s <> []) by (intros ->; apply Hs; now left).
    destruct (exists_last Hne) as (t & c & Es). destruct (Ascii.ascii_dec c c_dot) as [Ec|Ec].
    + destruct (IH s Hs') as [rs Hr]. exists rs. apply (rc_section ds allow s s); [|exact Hr]. left. split; [exists t; congruence|reflexivity].
    + destruct (IH (s ++ [c_dot])%list Hs') as [rs Hr]. exists rs. apply (rc_section ds allow s (s ++ [c_dot])%list); [|exact Hr].
      right. split; [exact Hne|]. split; [|reflexivity]. intros [t' Et]. rewrite Es in Et. apply app_inj_tail in Et. now destruct Et.
  - destruct (IH sec Hs') as [rs Hr]. destruct (allowed_option allowed prefixes (sec ++ n)%list) eqn:Ea.
    + eexists. apply rc_assign; [now apply Hacc|exact Hr].
    + assert (Hna : ~ accepts ds (sec ++ n)%list) by (rewrite <- Hacc; congruence). destruct allow.
      * eexists. apply rc_unregistered; [exact Hna|reflexivity|exact Hr].
      * eexists. apply rc_unknown; [exact Hna|reflexivity|exact Hr].
  - destruct (IH sec Hs') as [rs Hr]. eexists. apply rc_junk, Hr.
Qed.
Print Assumptions C120_resume_total.

(** Copies of an iterator over a config file are not independent: they take the lines from each other, and a section that one of them
    has entered is unknown to the other, which then gives its options wrong names. *)
Theorem C120_copies_refuted :
  exists text its s,
    config [] true text
    = Ok [config_option $"a" $"1" true; config_option $"s.b" $"2" true; config_option $"s.c" $"3" true]
    /\ run_its (config_get [] [] true) popt_new [] [OConstruct []; OCopy 0; OIncrement 0; OIncrement 1] [] (st_open text false)
       = (its, s, Ok tt)
    /\ map (@dereference _ _) its = [config_option $"s.b" $"2" true; config_option $"c" $"3" true].
Proof.
  exists ($"a=1" ++ [c_nl] ++ $"[s]" ++ [c_nl] ++ $"b=2" ++ [c_nl] ++ $"c=3" ++ [c_nl])%list. eexists _, _.
  split; [reflexivity|]. split; [reflexivity|]. reflexivity.
Qed.
Print Assumptions C120_copies_refuted.

(** ** Examples *)

Definition two_vars : list (str * str) := [($"A", $"1"); ($"B", $"x=y")].

(** A copy taken on the first variable stays there while the original goes on, is incremented itself, and assigned to. *)
Example C120_ex_environment :
  Forall (fun nv => without c_eq (fst nv)) two_vars
  /\ tallies [OConstruct (Some 0); OCopy 0; OIncrement 0; OIncrement 0; ODefault; OCopy 1; OIncrement 3; OAssign 2 3; OIncrement 0] []
     = Some [Some 3; Some 0; Some 1; Some 1]
  /\ exists its, run_its (env_iget (env_array two_vars [Some $"junk"])) ([], []) None
       [OConstruct (Some 0); OCopy 0; OIncrement 0; OIncrement 0; ODefault; OCopy 1; OIncrement 3; OAssign 2 3; OIncrement 0] [] tt
     = (its, tt, Ok tt)
     /\ map (@i_eof _ _) its = [true; false; false; false]
     /\ map (@dereference _ _) its = [($"B", $"x=y"); ($"A", $"1"); ($"B", $"x=y"); ($"B", $"x=y")].
Proof.
  split; [apply Forall_cons; [intros [H|[]]; discriminate H|apply Forall_cons; [intros [H|[]]; discriminate H|apply Forall_nil]]|]. split; [reflexivity|]. eexists. split; [vm_compute; reflexivity|]. split; vm_compute; reflexivity.
Qed.

(** The empty range of twice the first variable; its hypotheses are met. *)
Example C120_ex_forever :
  exists its first, tallies [OConstruct (Some 0)] [] = Some [Some 0]
  /\ run_its (env_iget (env_array two_vars [])) ([], []) None [OConstruct (Some 0)] [] tt = (its, tt, Ok tt)
  /\ nth_error its 0 = Some first /\ ~ at_end first
  /\ copy_range (env_iget (env_array two_vars [])) 1000 first first tt = (tt, NoFuel).
Proof.
  eexists _, _. split; [reflexivity|]. split; [reflexivity|]. split; [reflexivity|]. split; [discriminate|]. now vm_compute.
Qed.

(** A derived class that counts down from its member, and one more value when it finds the end *)
Definition countdown (d : nat) (v : nat) (w : unit) : got unit nat nat :=
  match d with 0 => mk_got true 77 0 w (Ok tt) | S d' => mk_got false d d' w (Ok tt) end.

Example C120_ex_range :
  exists it, construct countdown 0 3 tt = (it, tt, Ok tt) /\ copy_range countdown 4 it (default_iter 0 0) tt = (tt, Ok [3; 2; 1])
  /\ successive countdown (i_data it) (i_value it) tt [mk_got false 2 1 tt (Ok tt); mk_got false 1 0 tt (Ok tt); mk_got true 77 0 tt (Ok tt)] tt.
Proof.
  eexists. split; [reflexivity|]. split; [reflexivity|].
  apply su_cons; [reflexivity|reflexivity|]. apply su_cons; [reflexivity|reflexivity|]. apply su_cons; [reflexivity|reflexivity|]. apply su_nil.
Qed.

(** An iterator at the end is incremented, with others about. *)
Example C120_ex_end_stays :
  leaves_alone 0 [OIncrement 0; OConstruct 2; OAssign 1 0]
  /\ exists its, run_its countdown 0 0 [OIncrement 0; OConstruct 2; OAssign 1 0] [default_iter 0 5] tt = (its, tt, Ok tt)
     /\ map (@i_eof _ _) its = [true; true] /\ map (@dereference _ _) its = [5; 5].
Proof. split; [repeat constructor; discriminate|]. eexists. split; [reflexivity|]. split; reflexivity. Qed.

(** The same, and the increment of another iterator throws: the program goes on. *)
Definition faulty (d : nat) (v : nat) (w : unit) : got unit nat nat :=
  match d with 0 => mk_got false 77 0 w (Throw (plain_exn (po_error []))) | S d' => mk_got false d d' w (Ok tt) end.

Example C120_ex_exception :
  leaves_alone 0 [OConstruct 1; OIncrement 1; ODefault; OIncrement 0]
  /\ snd (increment faulty (mk_iter false 1 0) tt) = Throw (plain_exn (po_error []))
  /\ exists its, run_its faulty 0 0 [OConstruct 1; OIncrement 1; ODefault; OIncrement 0] [default_iter 0 5] tt = (its, tt, Ok tt)
     /\ map (@i_eof _ _) its = [true; false; true] /\ option_map (@dereference _ _) (nth_error its 0) = Some 5.
Proof. split; [repeat constructor; discriminate|]. split; [reflexivity|]. eexists. split; [reflexivity|]. split; reflexivity. Qed.

(** A file with a line at fault, read to the end *)
Example C120_ex_resume :
  exists it s1 e,
    construct (config_get [$"a"; $"s.b"] [] false) popt_new []
      (st_open ($"a=1" ++ [c_nl] ++ $"[s]" ++ [c_nl] ++ $"junk" ++ [c_nl] ++ $"b=2" ++ [c_nl] ++ $"c=3")%list false) = (it, s1, Ok tt)
    /\ dereference it = config_option $"a" $"1" false
    /\ drain (config_get [$"a"; $"s.b"] [] false) 9 it s1
       = Ok [inr e; inl (config_option $"s.b" $"2" false); inr (mk_unknown_option $"s.c")]
    /\ e = mk_config_syntax $"junk" unrecognized_line.
Proof.
  eexists _, _, (mk_config_syntax $"junk" unrecognized_line). split; [vm_compute; reflexivity|]. split; [vm_compute; reflexivity|].
  split; [vm_compute; reflexivity|reflexivity].
Qed.

(** An increment that throws *)
Example C120_ex_throws :
  exists it' s' e, increment (config_get [] [] false) (mk_iter false (config_option $"x" $"y" false) $"s.") (st_open $"junk" false) = (it', s', Throw e)
  /\ dereference it' = config_option $"x" $"y" false.
Proof. eexists _, _, _. split; reflexivity. Qed.
