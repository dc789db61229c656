(** Facts about the functions of the example programs. *)

From Coq Require Import List Ascii String NArith ZArith Bool Arith Lia.
From Verif Require Import Base Errors Spec BaseFacts Values OptDesc SpecLookup LookupFacts Positional Cmdline Parsers VarMap Objects
  SpecConfig ConfigFacts SpecStore StoreFacts ObjectFacts Recipes SpecRecipes.
Import ListNotations.

(** ** Checks *)

Lemma mentioned_iff h name : mentioned h name <-> ~ never_mentioned h name.
Proof.
  unfold mentioned, never_mentioned. split.
  - intros He Hf. apply Exists_exists in He. destruct He as (pu & Hi & Hm). rewrite Forall_forall in Hf. exact (Hf pu Hi Hm).
  - intros Hn. induction h as [|pu h IH]; [exfalso; apply Hn; constructor|].
    destruct (occurrences_dec (fst pu) name) as [Hm|Hm]; [now left|]. right. apply IH. intros Hf. apply Hn. now constructor.
Qed.

Lemma seen_unchained h vm name : stores vm_new h vm -> name <> [] -> seen vm [] name = true <-> mentioned h name.
Proof.
  intros H Hne. rewrite mentioned_iff. unfold seen, counts, chain_get, vm_get. split.
  - intros Hs Hn. destruct (stores_unmentioned _ _ _ _ H Hne Hn) as [_ [(v & E & _)|[_ Hd]]]; [discriminate|].
    unfold entry in Hd. destruct (sm_find name (vm_map vm)) as [v|]; [|discriminate].
    pose proof (default_defaulted _ _ _ v Hd eq_refl) as E. rewrite E in Hs. discriminate.
  - intros Hn. destruct (mentioned_given _ _ _ name H Hne) as (v & E & Ed); [right; split; [intros []|auto]|].
    unfold entry in E. rewrite E, Ed. reflexivity.
Qed.

Lemma chain_iff name : forall next vm,
  explicit (chain_get vm next name) <-> Exists (fun m => explicit (vm_get m name)) (vm :: next).
Proof.
  induction next as [|vm2 next IH]; intros vm.
  - cbn [chain_get]. split; [now left|]. intros H. inversion H as [? ? Hm|? ? Hm]; subst; auto. inversion Hm.
  - cbn [chain_get]. specialize (IH vm2). rewrite Exists_cons, <- IH.
    remember (chain_get vm2 next name) as v2 eqn:E2. unfold explicit.
    destruct (vv_value (vm_get vm name)) as [x|] eqn:Ev; cbn [any_empty].
    + destruct (vv_defaulted (vm_get vm name)) eqn:Ed.
      * destruct (vv_value v2) as [y|] eqn:Ey; cbn [any_empty negb andb].
        -- destruct (vv_defaulted v2) eqn:Ed2; cbn [negb].
           ++ rewrite Ev, Ed. intuition congruence.
           ++ rewrite Ey, Ed2. intuition congruence.
        -- rewrite Ev, Ed. intuition congruence.
      * rewrite Ev, Ed. intuition congruence.
    + intuition congruence.
Qed.

Lemma filled_explicit ty h vm name : filled_from ty h vm -> name <> [] -> explicit (vm_get vm name) <-> mentioned h name.
Proof.
  intros [H Hc] Hne. rewrite <- (seen_unchained h vm name H Hne). unfold seen, counts, chain_get, explicit, vm_get.
  destruct (sm_find name (vm_map vm)) as [v|] eqn:E.
  - destruct (stored_as ty h vm name v H Hc Hne E) as (x & Ex & _). rewrite Ex. destruct (vv_defaulted v); cbn; intuition congruence.
  - cbn. intuition congruence.
Qed.

Lemma seen_chained ty h vm hs next name :
  filled_from ty h vm -> Forall2 (filled_from ty) hs next -> name <> [] ->
  seen vm next name = true <-> present vm name /\ Exists (fun h' => mentioned h' name) (h :: hs).
Proof.
  intros H Hn Hne.
  assert (He : Exists (fun m => explicit (vm_get m name)) (vm :: next) <-> Exists (fun h' => mentioned h' name) (h :: hs)).
  { rewrite !Exists_cons, (filled_explicit ty h vm name H Hne).
    assert (K : Exists (fun m => explicit (vm_get m name)) next <-> Exists (fun h' => mentioned h' name) hs); [|tauto].
    induction Hn as [|h2 vm2 hs next H2 Hn IH]; [rewrite !Exists_nil; tauto|].
    rewrite !Exists_cons, (filled_explicit ty h2 vm2 name H2 Hne). tauto. }
  rewrite <- He, <- chain_iff. unfold seen, counts, present, entry. unfold explicit.
  destruct (sm_find name (vm_map vm)) as [v|] eqn:E; [|cbn; intuition congruence].
  destruct H as [H Hc]. destruct (stored_as ty h vm name v H Hc Hne E) as (x & Ex & _).
  assert (Hv : vv_value (chain_get vm next name) <> None).
  { apply chain_nonempty. left. unfold vm_get. rewrite E. congruence. }
  cbn [andb]. destruct (vv_defaulted (chain_get vm next name)); cbn; intuition congruence.
Qed.

(** ** Switches *)

Lemma reg_foo_switch tok n v : gcc_switch tok n v -> reg_foo tok = (n, v).
Proof.
  intros [x Hx|x]; unfold reg_foo.
  - replace (found_at_0 $"-f" ($"-f" ++ x)) with true by (symmetry; apply found_at_0_prefix; now exists x).
    change (substr_n ($"-f" ++ x) 2 3) with (firstn 3 x). change (substr ($"-f" ++ x) 2) with x.
    destruct (str_eqb (firstn 3 x) $"no-") eqn:E; [|reflexivity].
    apply str_eqb_eq in E. exfalso. apply (Hx (skipn 3 x)). rewrite <- E. symmetry. apply firstn_skipn.
  - replace (found_at_0 $"-f" ($"-fno-" ++ x)) with true
      by (symmetry; apply found_at_0_prefix; now exists ($"no-" ++ x)).
    reflexivity.
Qed.

Lemma reg_foo_none tok : (forall n v, ~ gcc_switch tok n v) -> reg_foo tok = ([], []).
Proof.
  intros H. unfold reg_foo. destruct (found_at_0 $"-f" tok) eqn:E; [|reflexivity].
  apply found_at_0_prefix in E. destruct E as [x ->]. exfalso.
  destruct (str_eqb (firstn 3 x) $"no-") eqn:E.
  - apply str_eqb_eq in E. apply (H (skipn 3 x) $"false").
    replace ($"-f" ++ x) with ($"-fno-" ++ skipn 3 x); [constructor|].
    rewrite <- (firstn_skipn 3 x) at 2. rewrite E. reflexivity.
  - apply (H x $"true"). constructor. intros y ->. discriminate.
Qed.

(** ** Magic numbers *)

Lemma digit_iff c n : digit_value c = Some n <-> digit c n.
Proof.
  unfold digit_value, digit.
  pose proof (ascii_N_embedding c) as Hc. split.
  - destruct ((48 <=? Z.of_N (N_of_ascii c)) && (Z.of_N (N_of_ascii c) <=? 57))%Z eqn:E; [|discriminate].
    intros [= <-]. apply andb_true_iff in E. destruct E as [E1 E2]. apply Z.leb_le in E1, E2.
    split; [lia|]. replace (48 + Z.to_N (Z.of_N (N_of_ascii c) - 48))%N with (N_of_ascii c) by lia. now rewrite ascii_N_embedding.
  - intros [Hn ->]. rewrite N_ascii_embedding by lia.
    replace ((48 <=? Z.of_N (48 + Z.to_N n)) && (Z.of_N (48 + Z.to_N n) <=? 57))%Z with true; [f_equal; lia|].
    symmetry. apply andb_true_iff. split; apply Z.leb_le; lia.
Qed.

Lemma match_iff s n : match_magic s = Some n <-> magic_form s n.
Proof.
  split.
  - unfold match_magic. destruct s as [|a [|b [|c [|d [|x [|y [|z [|? ?]]]]]]]]; try discriminate.
    destruct (digit_value a) as [a'|] eqn:Ea; [|discriminate]. destruct (digit_value b) as [b'|] eqn:Eb; [|discriminate].
    destruct (digit_value c) as [c'|] eqn:Ec; [|discriminate]. destruct (digit_value x) as [x'|] eqn:Ex; [|discriminate].
    destruct (digit_value y) as [y'|] eqn:Ey; [|discriminate]. destruct (digit_value z) as [z'|] eqn:Ez; [|discriminate].
    destruct (char_eqb c_dash d) eqn:Ed; [|discriminate]. apply Ascii.eqb_eq in Ed. subst d. intros [= <-].
    apply (mf a b c a' b' c' x y z x' y' z'); now apply digit_iff.
  - intros [a b c a' b' c' x y z x' y' z' Ha Hb Hc Hx Hy Hz]. apply digit_iff in Ha, Hb, Hc, Hx, Hy, Hz.
    unfold match_magic. now rewrite Ha, Hb, Hc, Hx, Hy, Hz.
Qed.

Lemma magic_iff k v xs n :
  validate_magic k v xs = (Some (VLex k n), Ok tt) <-> v = None /\ exists s, xs = [s] /\ magic_form s n.
Proof.
  unfold validate_magic, check_first_occurrence, get_single_string. split.
  - destruct v as [v|]; cbn; [intros H; inversion H|]. intros H. split; [reflexivity|].
    destruct xs as [|s [|? ?]]; cbn in H; try discriminate. exists s. split; [reflexivity|]. apply match_iff.
    destruct (match_magic s); cbn in H; [|discriminate]. now injection H as ->.
  - intros (-> & s & -> & H). apply match_iff in H. cbn. now rewrite H.
Qed.

Lemma magic_ok k v xs a :
  validate_magic k v xs = (a, Ok tt) -> v = None /\ exists s n, xs = [s] /\ magic_form s n /\ a = Some (VLex k n).
Proof.
  unfold validate_magic, check_first_occurrence, get_single_string.
  destruct v as [v|]; cbn; [intros H; inversion H|]. intros H. split; [reflexivity|].
  destruct xs as [|s [|? ?]]; cbn in H; try discriminate. exists s.
  destruct (match_magic s) as [n|] eqn:E; cbn in H; [|discriminate]. injection H as <-.
  exists n. split; [reflexivity|]. split; [now apply match_iff|reflexivity].
Qed.

(** ** The environment *)

Definition all_chars : list ascii := map ascii_of_nat (seq 0 256).

Lemma in_all_chars c : In c all_chars.
Proof.
  apply in_map_iff. exists (nat_of_ascii c). split; [apply ascii_nat_embedding|]. apply in_seq.
  pose proof (nat_ascii_bounded c). lia.
Qed.

Lemma upper_lower c d : upper_ascii c = upper_ascii d <-> lower_ascii c = lower_ascii d.
Proof.
  assert (H : forallb (fun c => forallb (fun d => Bool.eqb (Ascii.eqb (upper_ascii c) (upper_ascii d))
                                                   (Ascii.eqb (lower_ascii c) (lower_ascii d))) all_chars) all_chars = true)
    by (vm_compute; reflexivity).
  rewrite forallb_forall in H. specialize (H c (in_all_chars c)). rewrite forallb_forall in H.
  specialize (H d (in_all_chars d)). apply eqb_prop in H. rewrite <- !Ascii.eqb_eq, H. reflexivity.
Qed.

Lemma map_upper_lower s t : map upper_ascii s = map upper_ascii t <-> map lower_ascii s = map lower_ascii t.
Proof.
  revert t. induction s as [|c s IH]; intros [|d t]; cbn; split; intros H; try discriminate; auto;
    injection H as H1 H2; apply upper_lower in H1; apply IH in H2; congruence.
Qed.

Definition var_key (n : str) : str :=
  if str_eqb (map upper_ascii n) $"PATH" then $"path"
  else if str_eqb (map upper_ascii n) $"EXAMPLE_VERBOSE" then $"verbosity" else [].

Lemma mapM_toupper n : ascii7 n -> mapM toupper_char n = Ok (map upper_ascii n).
Proof.
  induction 1 as [|c n Hc _ IH]; [reflexivity|]. cbn [mapM map]. unfold toupper_char at 1. apply N.ltb_lt in Hc. rewrite Hc. cbn.
  now rewrite IH.
Qed.

Lemma mapM_toupper_not n : ~ ascii7 n -> mapM toupper_char n = Undef UB_ctype.
Proof.
  intros H. induction n as [|c n IH]; [exfalso; apply H; constructor|]. cbn [mapM]. unfold toupper_char at 1.
  destruct (N.ltb_spec (N_of_ascii c) 128) as [Hc|Hc]; [|reflexivity]. cbn [bind].
  rewrite IH; [reflexivity|]. intros Hn. apply H. now constructor.
Qed.

Lemma mapper_ascii n : ascii7 n -> mapper n = Ok (var_key n).
Proof. intros H. unfold mapper. rewrite (mapM_toupper n H). reflexivity. Qed.

Lemma parse_env_loop vars :
  Forall (fun nv => without c_eq (fst nv) /\ ascii7 (fst nv)) vars ->
  parse_environment_loop (environ vars) mapper
  = Ok (List.concat (map (fun nv => if is_empty (var_key (fst nv)) then [] else [env_option (var_key (fst nv)) (snd nv)]) vars)).
Proof.
  induction 1 as [|[n v] vars [Hn Ha] _ IH]; auto. cbn [environ map parse_environment_loop fst snd List.concat] in *.
  rewrite env_split_var by auto. cbn [bind fst snd]. rewrite (mapper_ascii n Ha). cbn [bind].
  change (map _ vars) with (environ vars) at 1. unfold environ in IH. cbn [fst snd] in IH. unfold environ. rewrite IH. reflexivity.
Qed.

Section Environment.
Variables (lexical_cast : nat -> str -> option Z) (utf8_to_local : str -> outcome str).

Definition path_sem := untyped utf8_to_local true.
Definition verb_sem := typed lexical_cast utf8_to_local
      (mk_typed TString None [] (Some (VString $"INFO", $"INFO")) None false false false false None).

(** The map with these values. *)
Definition env_state (p q : option str) : smap variable_value :=
  match p with Some s => [($"path", mk_vv (Some (VString s)) false (Some path_sem))] | None => [] end
  ++ match q with Some s => [($"verbosity", mk_vv (Some (VString s)) false (Some verb_sem))] | None => [] end.

Lemma env_path p q v os nf :
  store_options (env_config lexical_cast utf8_to_local) 0 [] false (env_option $"path" v :: os) (env_state p q) nf
  = match p with
    | None => store_options (env_config lexical_cast utf8_to_local) 0 [] false os (env_state (Some v) q) (ss_insert $"path" nf)
    | Some w => (env_state p q, nf, Throw (add_context $"path" [] 0 mk_multiple_occurrences))
    end.
Proof. destruct p, q; reflexivity. Qed.

Lemma env_verb p q v os nf :
  store_options (env_config lexical_cast utf8_to_local) 0 [] false (env_option $"verbosity" v :: os) (env_state p q) nf
  = match q with
    | None => store_options (env_config lexical_cast utf8_to_local) 0 [] false os (env_state p (Some v)) (ss_insert $"verbosity" nf)
    | Some w => (env_state p q, nf, Throw (add_context $"verbosity" [] 0 mk_multiple_occurrences))
    end.
Proof. destruct p, q; reflexivity. Qed.

(** The value of the variables with this name, nothing if there are two of them; [p] is the value so far. *)
Fixpoint take_var (w : str) (p : option str) (vars : list (str * str)) : option (option str) :=
  match vars with
  | [] => Some p
  | (n, v) :: vars' =>
      if str_eqb (map upper_ascii n) w then match p with None => take_var w (Some v) vars' | Some _ => None end
      else take_var w p vars'
  end.

Definition env_opts (vars : list (str * str)) : list popt :=
  List.concat (map (fun nv => if is_empty (var_key (fst nv)) then [] else [env_option (var_key (fst nv)) (snd nv)]) vars).

Definition refused (e : exn) : Prop := ex_class e = multiple_occurrences.

Lemma store_env vars : forall p q nf,
  match take_var $"PATH" p vars, take_var $"EXAMPLE_VERBOSE" q vars with
  | Some p', Some q' => exists nf',
      store_options (env_config lexical_cast utf8_to_local) 0 [] false (env_opts vars) (env_state p q) nf
      = (env_state p' q', nf', Ok tt)
  | _, _ => exists m nf' e,
      store_options (env_config lexical_cast utf8_to_local) 0 [] false (env_opts vars) (env_state p q) nf = (m, nf', Throw e)
      /\ refused e
  end.
Proof.
  induction vars as [|[n v] vars IH]; intros p q nf; cbn [take_var]; [now exists nf|].
  unfold env_opts. cbn [map List.concat fst snd]. fold (env_opts vars).
  destruct (str_eqb (map upper_ascii n) $"PATH") eqn:E1.
  - assert (E2 : str_eqb (map upper_ascii n) $"EXAMPLE_VERBOSE" = false) by (apply str_eqb_eq in E1; rewrite E1; reflexivity).
    assert (Ek : var_key n = $"path") by (unfold var_key; now rewrite E1). rewrite E2, Ek.
    change (is_empty $"path") with false. cbn iota. cbn [app]. rewrite env_path.
    destruct p as [w|]; [|apply IH]. eexists _, _, _. split; reflexivity.
  - destruct (str_eqb (map upper_ascii n) $"EXAMPLE_VERBOSE") eqn:E2.
    + assert (Ek : var_key n = $"verbosity") by (unfold var_key; now rewrite E1, E2). rewrite Ek.
      change (is_empty $"verbosity") with false. cbn iota. cbn [app]. rewrite env_verb.
      destruct q as [w|]; [|apply IH]. destruct (take_var $"PATH" p vars); eexists _, _, _; split; reflexivity.
    + assert (Ek : var_key n = []) by (unfold var_key; now rewrite E1, E2). rewrite Ek. cbn [is_empty app]. apply IH.
Qed.

Lemma env_options_result vars :
  Forall (fun nv => without c_eq (fst nv) /\ ascii7 (fst nv)) vars ->
  match take_var $"PATH" None vars, take_var $"EXAMPLE_VERBOSE" None vars with
  | Some p, Some q =>
      get_env_options lexical_cast utf8_to_local (environ vars)
      = Ok (option_map (firstn 75) p, match q with Some s => s | None => $"INFO" end)
  | _, _ => exists e, get_env_options lexical_cast utf8_to_local (environ vars) = Throw e /\ refused e
  end.
Proof.
  intros H. pose proof (store_env vars None None []) as K.
  change (env_state None None) with (@nil (str * variable_value)) in K.
  unfold get_env_options, parse_environment. rewrite (parse_env_loop vars H). fold (env_opts vars). cbn [bind].
  unfold store. cbn [pr_desc pr_options pr_prefix vm_new vm_map vm_final vm_required].
  destruct (take_var $"PATH" None vars) as [p|]; [destruct (take_var $"EXAMPLE_VERBOSE" None vars) as [q|]|].
  - destruct K as (nf' & ->). destruct p, q; reflexivity.
  - destruct K as (m & nf' & e & -> & He). exists e. split; [reflexivity|exact He].
  - destruct K as (m & nf' & e & -> & He). exists e. split; [reflexivity|exact He].
Qed.
End Environment.

Lemma upper_name w n : map upper_ascii w = w -> str_eqb (map upper_ascii n) w = true <-> same_up_to_case n w.
Proof. intros Hw. rewrite str_eqb_eq, same_up_to_case_map, <- map_upper_lower, Hw. reflexivity. Qed.

Section Variables.
Variables (w : str) (Hw : map upper_ascii w = w).

Lemma take_skip vars : Forall (fun nv => ~ same_up_to_case (fst nv) w) vars ->
  forall p rest, take_var w p (vars ++ rest) = take_var w p rest.
Proof.
  induction 1 as [|[n v] vars Hn _ IH]; intros p rest; [reflexivity|]. cbn [app take_var fst] in *.
  destruct (str_eqb (map upper_ascii n) w) eqn:E; [apply upper_name in E; auto; contradiction|]. apply IH.
Qed.

Lemma take_one vars r : one_variable w vars r -> take_var w None vars = Some r.
Proof.
  intros [vars' Hf|l1 n v l2 Hf Hn].
  - rewrite <- (app_nil_r vars'). now rewrite take_skip.
  - apply Forall_app in Hf. destruct Hf as [H1 H2]. rewrite take_skip by exact H1. cbn [take_var].
    apply (upper_name w n Hw) in Hn. rewrite Hn. rewrite <- (app_nil_r l2). now rewrite take_skip.
Qed.

Lemma take_given vars x : Exists (fun nv => same_up_to_case (fst nv) w) vars -> take_var w (Some x) vars = None.
Proof.
  induction 1 as [[n v] vars Hn|[n v] vars _ IH]; cbn [take_var fst] in *.
  - apply (upper_name w n Hw) in Hn. now rewrite Hn.
  - destruct (str_eqb (map upper_ascii n) w); auto.
Qed.

Lemma take_two vars : two_variables w vars -> take_var w None vars = None.
Proof.
  intros (l1 & n & v & l2 & n' & v' & l3 & -> & Hn & Hn').
  assert (He : Exists (fun nv => same_up_to_case (fst nv) w) (l2 ++ (n', v') :: l3)).
  { apply Exists_app. right. now left. }
  assert (K : take_var w None ((n, v) :: l2 ++ (n', v') :: l3) = None).
  { cbn [take_var]. apply (upper_name w n Hw) in Hn. rewrite Hn. now apply take_given. }
  revert K. generalize ((n, v) :: l2 ++ (n', v') :: l3) as rest. intros rest K.
  assert (Hr : Exists (fun nv => same_up_to_case (fst nv) w) rest).
  { destruct rest as [|[n0 v0] rest]; [discriminate|]. clear - K Hw.
    assert (G : forall vars, take_var w None vars = None -> Exists (fun nv => same_up_to_case (fst nv) w) vars).
    { induction vars as [|[a b] vars IH]; [discriminate|]. cbn [take_var].
      destruct (str_eqb (map upper_ascii a) w) eqn:E; [left; now apply upper_name in E|right; auto]. }
    now apply G. }
  induction l1 as [|[a b] l1 IH]; [exact K|]. cbn [app take_var].
  destruct (str_eqb (map upper_ascii a) w); [|exact IH]. apply take_given. apply Exists_app. now right.
Qed.
End Variables.
