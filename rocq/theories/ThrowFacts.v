(** Every error the library throws can be shown. *)

From Coq Require Import List Ascii String NArith ZArith Bool Arith Lia.
From Verif Require Import Base Errors Values OptDesc Positional Cmdline Parsers ConfigFile VarMap SplitUnix
  Spec BaseFacts SpecErrors ErrorFacts Streams SpecStreams StreamFacts.
Import ListNotations.

Definition valid_style (z : Z) : Prop :=
  In z [0; allow_long; allow_long_disguise; allow_dash_for_short; allow_slash_for_short]%Z.

Lemma valid_cl_prefix c : valid_style (cl_prefix c).
Proof.
  unfold cl_prefix, valid_style.
  destruct (has _ allow_long); [right; now left|]. destruct (has _ allow_long_disguise); [right; right; now left|].
  destruct (has _ allow_short && has _ allow_dash_for_short); [right; right; right; now left|].
  destruct (has _ allow_short && has _ allow_slash_for_short); [right; right; right; right; now left|now left].
Qed.

Lemma detail_set e k v k' : detail (set_substitute k v e) k' = if str_eqb k' k then Some v else detail e k'.
Proof.
  unfold detail, set_substitute. cbn [ex_subst]. destruct (str_eqb_spec k' k) as [->|H].
  - apply sm_find_set_same.
  - now apply sm_find_set_other.
Qed.

Lemma presentable_set e k v : good_name k -> presentable e -> presentable (set_substitute k v e).
Proof.
  intros Hk [H1 H2 H3 H4 H5 H6]. split; auto.
  - rewrite detail_set. now destruct (str_eqb _ k).
  - rewrite detail_set. now destruct (str_eqb _ k).
  - apply Forall_forall. intros x Hx. cbn [set_substitute ex_subst] in Hx.
    fold (keys (sm_set k v (ex_subst e))) in Hx. apply sm_set_keys in Hx. rewrite Forall_forall in H4.
    destruct Hx as [->|Hx]; [exact Hk|apply H4; exact Hx].
  - intros k0 Hk0 E. rewrite detail_set. destruct (str_eqb _ k); [discriminate|]. now apply (H6 k0).
Qed.

Lemma presentable_style e z : valid_style z -> presentable e -> presentable (mk_exn (ex_class e) z (ex_subst e)).
Proof. intros Hz [H1 H2 H3 H4 H5 H6]. split; auto. Qed.

Lemma good_option : good_name $"option".
Proof. split; intros H; cbn in H; intuition discriminate. Qed.
Lemma good_token : good_name $"original_token".
Proof. split; intros H; cbn in H; intuition discriminate. Qed.

Lemma presentable_context name tok z e : valid_style z -> presentable e -> presentable (add_context name tok z e).
Proof.
  intros Hz P. unfold add_context. destruct (has_option_name (ex_class e)); auto. cbv zeta.
  apply presentable_style; auto. apply presentable_set; [apply good_token|].
  destruct (no_option_name (ex_class e)); auto. apply presentable_set; [apply good_option|auto].
Qed.

Lemma showable_context name tok z e : valid_style z -> showable e -> showable (add_context name tok z e).
Proof.
  intros Hz H Hc. apply presentable_context; auto. apply H. revert Hc. unfold add_context.
  destruct (has_option_name (ex_class e)) eqn:E; [reflexivity|congruence].
Qed.

Lemma presentable_make c o t z : valid_style z ->
  (forall alts, c = ambiguous_option alts -> alts <> []) ->
  (forall k, c = invalid_command_line_syntax k \/ c = invalid_config_file_syntax k -> k <> unrecognized_line) ->
  presentable (make_exn c o t z).
Proof.
  intros Hz Ha Hl. split; auto; try discriminate.
  - cbn. constructor; [apply good_option|]. constructor; [apply good_token|constructor].
  - intros k Hk E. now apply Hl in Hk.
Qed.

Ltac make := apply presentable_make; [now left || assumption | discriminate | intros k' [?|?]; congruence].

Lemma showable_unknown t : showable (mk_unknown_option t).
Proof. intros _. make. Qed.
Lemma showable_ambiguous alts : alts <> [] -> showable (mk_ambiguous alts).
Proof.
  intros H _. apply presentable_make; [now left| |intros k' [?|?]; discriminate]. intros alts' E. congruence.
Qed.
Lemma showable_syntax k n t z : valid_style z -> k <> unrecognized_line -> showable (mk_cmdline_syntax k n t z).
Proof. intros Hz Hk _. apply presentable_make; auto; [discriminate|]. intros k' [?|?]; congruence. Qed.
Lemma showable_config line k : showable (mk_config_syntax line k).
Proof.
  intros _. unfold mk_config_syntax. split; cbn; auto; try discriminate.
  - constructor; [|constructor; [apply good_option|constructor; [apply good_token|constructor]]].
    split; intros H; cbn in H; intuition discriminate.
Qed.
Lemma showable_validation k : showable (mk_validation k).
Proof. intros _. make. Qed.
Lemma good_value : good_name $"value".
Proof. split; intros H; cbn in H; intuition discriminate. Qed.
Lemma showable_invalid_value v : showable (mk_invalid_option_value v).
Proof. intros _. apply presentable_set; [apply good_value|]. make. Qed.
Lemma showable_invalid_bool v : showable (mk_invalid_bool_value v).
Proof. intros _. apply presentable_set; [apply good_value|]. make. Qed.
Lemma showable_multiple_values : showable mk_multiple_values.
Proof. intros _. make. Qed.
Lemma showable_multiple_occurrences : showable mk_multiple_occurrences.
Proof. intros _. make. Qed.
Lemma showable_required n : showable (mk_required_option n).
Proof. intros _. make. Qed.
Lemma showable_plain c : has_option_name c = false -> showable (plain_exn c).
Proof. intros H Hc. cbn in Hc. congruence. Qed.

(** ** Combinators *)

Lemma ts_Ok A (a : A) : throws_showable (Ok a).
Proof. intros e H. discriminate. Qed.
Lemma ts_Undef A u : throws_showable (@Undef A u).
Proof. intros e H. discriminate. Qed.
Lemma ts_NoFuel A : throws_showable (@NoFuel A).
Proof. intros e H. discriminate. Qed.
Lemma ts_Throw A e : showable e -> throws_showable (@Throw A e).
Proof. intros H e' E. injection E as <-. exact H. Qed.
Lemma ts_bind A B (x : outcome A) (f : A -> outcome B) :
  throws_showable x -> (forall a, x = Ok a -> throws_showable (f a)) -> throws_showable (bind x f).
Proof.
  intros H1 H2 e E. destruct x as [a| | |]; cbn in E; try discriminate.
  - exact (H2 a eq_refl e E).
  - apply H1. congruence.
Qed.
Lemma ts_context A name tok z (x : outcome A) : valid_style z -> throws_showable x -> throws_showable (with_context name tok z x).
Proof.
  intros Hz H e E. destruct x as [|e'| |]; cbn in E; try discriminate. injection E as <-. apply showable_context; auto.
Qed.
Lemma ts_at_index A (l : list A) i : throws_showable (at_index l i).
Proof. unfold at_index. destruct (nth_error l i); [apply ts_Ok|apply ts_Undef]. Qed.
Lemma ts_erase_front l : throws_showable (erase_front l).
Proof. destruct l; [apply ts_Undef|apply ts_Ok]. Qed.
Lemma ts_mapM A B (f : A -> outcome B) l : (forall x, throws_showable (f x)) -> throws_showable (mapM f l).
Proof.
  intros H. induction l as [|x l IH]; cbn [mapM]; [apply ts_Ok|].
  apply ts_bind; auto. intros y _. apply ts_bind; auto. intros; apply ts_Ok.
Qed.
Lemma ts_tolower c : throws_showable (tolower_char c).
Proof. unfold tolower_char. destruct (_ <? _)%N; [apply ts_Ok|apply ts_Undef]. Qed.
Lemma ts_last_char s : throws_showable (last_char s).
Proof. unfold last_char. destruct (rev s); [apply ts_Undef|apply ts_Ok]. Qed.

Create HintDb ts.
#[export] Hint Resolve ts_Ok ts_Undef ts_NoFuel ts_context ts_at_index ts_erase_front ts_tolower ts_last_char valid_cl_prefix : ts.

(** ** Lookup *)

Lemma ts_fold b s : throws_showable (fold_case b s).
Proof. unfold fold_case, tolower_. destruct b; auto with ts. apply ts_mapM. auto with ts. Qed.

Lemma ts_match_longs o approx lic names : forall r, throws_showable (match_longs o approx lic names r).
Proof.
  induction names as [|n names IH]; intros r; cbn [match_longs]; auto with ts.
  apply ts_bind; [apply ts_fold|]. intros name _. destruct (is_empty name); auto.
  apply ts_bind; auto with ts. intros l _. cbv zeta. destruct (str_eqb name o); auto with ts.
Qed.

Lemma ts_od_match d o a l s : throws_showable (od_match d o a l s).
Proof.
  unfold od_match. apply ts_bind; [apply ts_fold|]. intros x _. apply ts_bind; [apply ts_match_longs|]. intros r _.
  destruct r; auto with ts; (apply ts_bind; [apply ts_fold|]; intros y _; destruct (str_eqb y x); auto with ts).
Qed.

Lemma ts_find_loop name a l s ds : forall st, throws_showable (find_loop name a l s ds st).
Proof.
  induction ds as [|d ds IH]; intros st; cbn [find_loop]; auto with ts.
  apply ts_bind; [apply ts_od_match|]. intros r _. destruct r; auto.
Qed.

Lemma ts_find_nothrow ds name a l s : throws_showable (find_nothrow ds name a l s).
Proof.
  unfold find_nothrow. apply ts_bind; [apply ts_find_loop|]. intros st _.
  destruct (1 <? List.length (fs_full st))%nat eqn:E1.
  - apply ts_Throw, showable_ambiguous. intros H. rewrite H in E1. discriminate.
  - destruct (is_empty (fs_full st) && _) eqn:E2; auto with ts. apply andb_true_iff in E2. destruct E2 as [_ E2].
    apply ts_Throw, showable_ambiguous. intros H. rewrite H in E2. discriminate.
Qed.

Lemma ts_find ds name a l s : throws_showable (find ds name a l s).
Proof.
  unfold find. apply ts_bind; [apply ts_find_nothrow|]. intros [d|] _; auto with ts. apply ts_Throw, showable_unknown.
Qed.

(** ** The command line *)

Section Parser.
Variable c : cmdline.
Hypothesis Huser : forall p, cl_style_parser c = Some p -> forall args, throws_showable (p args).

Lemma ts_lookup name : throws_showable (lookup c name).
Proof. apply ts_find_nothrow. Qed.

Lemma ts_long args : throws_showable (parse_long_option c args).
Proof.
  unfold parse_long_option. apply ts_bind; auto with ts. intros tok _. destruct tok as [|c1 [|c2 [|c3 tok]]]; auto with ts.
  destruct (_ && _); auto with ts. apply ts_bind.
  - destruct (find_char c_eq _); auto with ts. cbv zeta. destruct (is_empty _); auto with ts.
    apply ts_Throw, showable_syntax; [apply valid_cl_prefix|discriminate].
  - intros [n a] _. cbv zeta. apply ts_bind; auto with ts.
Qed.

Lemma ts_short_loop tok adjacent : forall name result, throws_showable (short_loop c tok name adjacent result).
Proof.
  induction adjacent as [|a adjacent IH]; intros name result; cbn [short_loop].
  - apply ts_bind; [apply ts_context; [auto with ts|apply ts_find_nothrow]|]. intros [d|] _; cbv zeta; auto with ts.
  - apply ts_bind; [apply ts_context; [auto with ts|apply ts_find_nothrow]|]. intros [d|] _; cbv zeta; auto with ts.
    destruct (_ && _); auto with ts.
Qed.

Lemma ts_short args : throws_showable (parse_short_option c args).
Proof.
  unfold parse_short_option. apply ts_bind; auto with ts. intros tok _. destruct tok as [|c1 [|c2 tok]]; auto with ts.
  destruct (_ && _); auto with ts. apply ts_bind; [apply ts_short_loop|]. intros r _. apply ts_bind; auto with ts.
Qed.

Lemma ts_dos args : throws_showable (parse_dos_option c args).
Proof.
  unfold parse_dos_option. apply ts_bind; auto with ts. intros tok _. destruct tok as [|c1 [|c2 tok]]; auto with ts.
  destruct (char_eqb _ _); auto with ts. cbv zeta. apply ts_bind; auto with ts.
Qed.

Lemma ts_disguised args : throws_showable (parse_disguised_long_option c args).
Proof.
  unfold parse_disguised_long_option. apply ts_bind; auto with ts. intros tok _. destruct tok as [|c1 [|c2 tok]]; auto with ts.
  destruct (_ || _); auto with ts. cbv zeta. apply ts_bind; [apply ts_context; [auto with ts|apply ts_lookup]|].
  intros [d|] _; auto with ts. apply ts_bind; auto with ts. intros rest _. apply ts_context; [auto with ts|apply ts_long].
Qed.

Lemma ts_terminator args : throws_showable (parse_terminator args).
Proof. unfold parse_terminator. apply ts_bind; auto with ts. intros tok _. destruct (str_eqb _ _); auto with ts. Qed.

Lemma ts_additional p args : throws_showable (handle_additional_parser p args).
Proof.
  unfold handle_additional_parser. apply ts_bind; auto with ts. intros tok _. destruct (p tok) as [a b].
  destruct (is_empty a); auto with ts. apply ts_bind; auto with ts.
Qed.

Lemma ts_style_parsers p : In p (style_parsers c) -> forall args, throws_showable (p args).
Proof.
  unfold style_parsers. rewrite !in_app_iff. intros H args.
  destruct H as [H|[H|[H|[H|[H|[H|H]]]]]].
  - destruct (cl_style_parser c) as [q|] eqn:E; [|destruct H]. destruct H as [<-|[]]. now apply Huser.
  - destruct (cl_additional c) as [q|]; [|destruct H]. destruct H as [<-|[]]. apply ts_additional.
  - destruct (has _ allow_long); [|destruct H]. destruct H as [<-|[]]. apply ts_long.
  - destruct (has _ allow_long_disguise); [|destruct H]. destruct H as [<-|[]]. apply ts_disguised.
  - destruct (_ && _); [|destruct H]. destruct H as [<-|[]]. apply ts_short.
  - destruct (_ && _); [|destruct H]. destruct H as [<-|[]]. apply ts_dos.
  - destruct H as [<-|[]]. apply ts_terminator.
Qed.

Lemma ts_looks ps : (forall p, In p ps -> forall args, throws_showable (p args)) ->
  forall toks, throws_showable (looks_like_option ps toks).
Proof.
  induction ps as [|p ps IH]; intros H toks; cbn [looks_like_option]; auto with ts.
  apply ts_bind; [apply H; now left|]. intros [f t] _. destruct (is_empty f); auto with ts.
  apply IH. intros q Hq. apply H. now right.
Qed.

Lemma ts_grab ps : (forall p, In p ps -> forall args, throws_showable (p args)) ->
  forall others key tok n opt, throws_showable (grab_tokens c ps key tok n opt others).
Proof.
  intros H. induction others as [|t others IH]; intros key tok n opt; cbn [grab_tokens]; auto with ts.
  destruct (Z.eqb n 0); auto with ts.
  apply ts_bind; [apply ts_context; [auto with ts|now apply ts_looks]|]. intros f _. apply ts_bind; [|auto].
  destruct f; auto with ts. apply ts_bind; [apply ts_context; [auto with ts|apply ts_lookup]|].
  intros [d|] _; auto with ts. apply ts_context; [auto with ts|]. apply ts_Throw, showable_syntax; [now left|discriminate].
Qed.

Lemma ts_finish ps : (forall p, In p ps -> forall args, throws_showable (p args)) ->
  forall opt others, throws_showable (finish_option c ps opt others).
Proof.
  intros H opt others. unfold finish_option. destruct (is_empty _); auto with ts. cbv zeta.
  apply ts_bind; [apply ts_context; [auto with ts|apply ts_lookup]|]. intros [d|] _.
  - destruct (Z.leb _ _).
    + destruct (_ && _).
      * apply ts_context; [auto with ts|]. apply ts_Throw, showable_syntax; [now left|discriminate].
      * now apply ts_grab.
    + apply ts_context; [auto with ts|]. apply ts_Throw, showable_syntax; [now left|discriminate].
  - destruct (cl_allow_unregistered c); auto with ts. apply ts_context; [auto with ts|]. apply ts_Throw, showable_unknown.
Qed.

Lemma ts_finish_all ps : (forall p, In p ps -> forall args, throws_showable (p args)) ->
  forall next args, throws_showable (finish_all c ps next args).
Proof.
  intros H. induction next as [|o next IH]; intros args; cbn [finish_all]; auto with ts.
  destruct next as [|o2 next].
  - apply ts_bind; [now apply ts_finish|]. intros; auto with ts.
  - apply ts_bind; [now apply ts_finish|]. intros r _. apply ts_bind; [apply IH|]. intros; auto with ts.
Qed.

Lemma ts_try ps todo : (forall p, In p ps -> forall args, throws_showable (p args)) ->
  (forall p, In p todo -> forall args, throws_showable (p args)) ->
  forall args, throws_showable (try_parsers c ps todo args).
Proof.
  intros H. induction todo as [|p todo IH]; intros Ht args; cbn [try_parsers]; auto with ts.
  apply ts_bind; [apply Ht; now left|]. intros [next args1] _. apply ts_bind; [now apply ts_finish_all|].
  intros [fin args2] _. destruct (Nat.eqb _ _); auto with ts. apply ts_bind.
  - apply IH. intros q Hq. apply Ht. now right.
  - intros [[f a] ok] _. auto with ts.
Qed.

Lemma ts_main_step args : throws_showable (main_step c args).
Proof.
  unfold main_step. cbv zeta. apply ts_bind; [apply ts_try; apply ts_style_parsers|]. intros [[o a] ok] _.
  destruct ok; auto with ts. apply ts_bind; auto with ts. intros t _. apply ts_bind; auto with ts.
Qed.

Lemma ts_main_loop fuel : forall args, throws_showable (main_loop fuel c args).
Proof.
  induction fuel as [|fuel IH]; intros [|a args]; cbn [main_loop]; auto with ts.
  apply ts_bind; [apply ts_main_step|]. intros r _. apply ts_bind; auto. intros; auto with ts.
Qed.

Lemma ts_grab_positional fs : forall n opt, throws_showable (grab_positional n opt fs).
Proof.
  induction fs as [|f fs IH]; intros n opt; cbn [grab_positional]; auto with ts.
  destruct (Z.eqb n 0); auto with ts. destruct (negb _); auto with ts. destruct (Z.eqb _ INT_MAX); auto with ts.
  destruct (po_value f) as [|? [|? ?]]; auto with ts; destruct (po_orig f) as [|? [|? ?]]; auto with ts.
  destruct (Z.eqb n INT_MIN); auto with ts.
Qed.

Lemma ts_merge fuel : forall opts, throws_showable (merge_pass fuel c opts).
Proof.
  induction fuel as [|fuel IH]; intros [|o opts]; cbn [merge_pass]; auto with ts.
  destruct (is_empty (po_key o)).
  - apply ts_bind; auto. intros; auto with ts.
  - apply ts_bind.
    + pose proof (ts_lookup (po_key o)) as Hl. destruct (lookup c (po_key o)) as [d|e| |]; auto with ts.
      destruct (has_option_name (ex_class e)); [|exact Hl]. apply ts_bind; auto with ts. intros t _.
      apply ts_Throw, showable_context; auto with ts.
    + intros [d|] _.
      * cbv zeta. destruct (_ && _).
        -- apply ts_bind; [apply ts_grab_positional|]. intros g _. apply ts_bind; auto. intros; auto with ts.
        -- apply ts_bind; auto. intros; auto with ts.
      * apply ts_bind; auto. intros; auto with ts.
Qed.

Lemma ts_name_positionals p : forall opts pos, throws_showable (name_positionals p pos opts).
Proof.
  induction opts as [|o opts IH]; intros pos; cbn [name_positionals]; auto with ts.
  destruct (Z.eqb _ _).
  - apply ts_bind; auto. intros; auto with ts.
  - destruct (Z.leb _ _); [apply ts_Throw, showable_plain; reflexivity|]. apply ts_bind.
    + unfold name_for_position. destruct (Z.ltb _ _); auto with ts. destruct (nth_error _ _); auto with ts.
    + intros n _. apply ts_bind; auto. intros; auto with ts.
Qed.

Lemma ts_run fuel args : throws_showable (run fuel c args).
Proof.
  unfold run. apply ts_bind; [apply ts_main_loop|]. intros r _. apply ts_bind; [apply ts_merge|]. intros r2 _. cbv zeta.
  apply ts_bind; [|intros; auto with ts]. destruct (cl_positional c); auto with ts. apply ts_name_positionals.
Qed.

End Parser.

Lemma ts_parser_run c fuel args :
  (forall p, cl_style_parser c = Some p -> forall args, throws_showable (p args)) ->
  throws_showable (parser_run fuel c args).
Proof. intros H. unfold parser_run. apply ts_bind; [now apply ts_run|]. intros; auto with ts. Qed.

Lemma ts_set_style z : throws_showable (set_style z).
Proof.
  unfold set_style, check_style. cbv zeta. apply ts_bind; [|intros; auto with ts].
  repeat (match goal with |- throws_showable (if ?b then _ else _) => destruct b end;
    [apply ts_Throw, showable_plain; reflexivity|]). auto with ts.
Qed.

Lemma ts_parse_command_line fuel args ds z ext : throws_showable (parse_command_line fuel args ds z ext).
Proof.
  unfold parse_command_line. apply ts_bind; [apply ts_set_style|]. intros s _. apply ts_parser_run. discriminate.
Qed.

(** ** Files and environment *)

Lemma ts_add_option ps n : throws_showable (cf_add_option ps n).
Proof.
  unfold cf_add_option. destruct (is_empty n); auto with ts. apply ts_bind; auto with ts. intros l _.
  destruct (char_eqb l c_star); auto with ts. cbv zeta.
  match goal with |- throws_showable (if ?b then _ else _) => destruct b end; auto with ts.
  apply ts_Throw, showable_plain. reflexivity.
Qed.

Lemma ts_add_options l : forall ps, throws_showable (cf_add_options ps l).
Proof.
  induction l as [|n l IH]; intros ps; cbn [cf_add_options]; auto with ts. apply ts_bind; [apply ts_add_option|]. auto.
Qed.

Lemma ts_cf_get al ps au lines : forall pre, throws_showable (cf_get al ps au pre lines).
Proof.
  induction lines as [|l lines IH]; intros pre; cbn [cf_get]; auto with ts. cbv zeta. destruct (is_empty _); auto.
  destruct (is_section _).
  - apply ts_bind; [|auto]. unfold section_prefix. cbv zeta. apply ts_bind; auto with ts.
  - destruct (find_char _ _).
    + destruct (_ && _); auto with ts. apply ts_Throw, showable_unknown.
    + apply ts_Throw, showable_config.
Qed.

Lemma ts_cf_copy al ps au fuel : forall st, throws_showable (cf_copy fuel al ps au st).
Proof.
  induction fuel as [|fuel IH]; intros st; cbn [cf_copy]; auto with ts.
  apply ts_bind; [apply ts_cf_get|]. intros [[o|] st'] _; auto with ts. apply ts_bind; auto. intros; auto with ts.
Qed.

Lemma ts_cf_allowed ds : forall al, throws_showable (cf_allowed ds al).
Proof.
  induction ds as [|d ds IH]; intros al; cbn [cf_allowed]; auto with ts.
  destruct (is_empty _); auto. apply ts_Throw, showable_plain. reflexivity.
Qed.

Lemma ts_parse_config content ds au : throws_showable (parse_config_file content ds au).
Proof.
  unfold parse_config_file. cbv zeta. apply ts_bind; [apply ts_cf_allowed|]. intros al _.
  apply ts_bind; [apply ts_add_options|]. intros ps _. apply ts_bind; [apply ts_cf_copy|]. intros; auto with ts.
Qed.

Lemma ts_parse_config_named n file ds au : throws_showable (parse_config_file_named n file ds au).
Proof.
  destruct file as [f|]; cbn [parse_config_file_named].
  - cbv zeta. destruct (delivers_total _ c_nl char_newline (st_open (file_text f) (file_broken f))) as [t Ht].
    rewrite (stream_text _ t ds au Ht). apply ts_bind; [apply ts_parse_config|]. intros r _.
    destruct (st_bad _); [|apply ts_Ok]. apply ts_Throw, showable_plain. reflexivity.
  - apply ts_Throw, showable_plain. reflexivity.
Qed.

Lemma ts_environment env ds mapper : (forall s, throws_showable (mapper s)) -> throws_showable (parse_environment env ds mapper).
Proof.
  intros H. unfold parse_environment. apply ts_bind; [|intros; auto with ts].
  induction env as [|s env IH]; cbn [parse_environment_loop]; auto with ts.
  apply ts_bind.
  - unfold env_split. destruct (find_char _ _); auto with ts.
  - intros p _. apply ts_bind; auto. intros n _. apply ts_bind; auto. intros; auto with ts.
Qed.

(** ** Storage *)

Lemma ts_store p vm utf8 :
  valid_style (pr_prefix p) ->
  (forall ds d, pr_desc p = Some ds -> In d ds -> forall v xs u, throws_showable (snd (vs_parse (od_sem d) v xs u))) ->
  throws_showable (snd (store p vm utf8)).
Proof.
  intros Hz Hs. unfold store. destruct (pr_desc p) as [ds|] eqn:Ed; [|apply ts_Undef].
  assert (H : forall opts m nf, throws_showable (snd (store_options ds (pr_prefix p) (vm_final vm) utf8 opts m nf))).
  { induction opts as [|o opts IH]; intros m nf; cbn [store_options]; cbv zeta; [apply ts_Ok|].
    destruct (is_empty (po_key o)); auto. destruct (po_unreg o); auto. destruct (ss_mem (po_key o) (vm_final vm)); auto.
    destruct (find ds (po_key o) false false false) as [d|e| |] eqn:Ef; try apply ts_Undef; try apply ts_NoFuel.
    - assert (Hd : In d ds).
      { clear - Ef. unfold find, find_nothrow in Ef. apply bind_Ok in Ef. destruct Ef as (x & Ex & Ef).
        destruct x as [d'|]; [|discriminate]. injection Ef as ->. apply bind_Ok in Ex. destruct Ex as (st & Est & Ex).
        assert (Ed : fs_found st = Some d) by (destruct (1 <? _)%nat; [discriminate|]; destruct (_ && _); [discriminate|]; congruence).
        clear Ex. revert Est.
        assert (G : forall ds0 st0, find_loop (po_key o) false false false ds0 st0 = Ok st ->
          (forall x, fs_found st0 = Some x -> In x ds) -> incl ds0 ds -> In d ds).
        { induction ds0 as [|d0 ds0 IH]; intros st0 E H0 Hi; cbn [find_loop] in E.
          - injection E as ->. auto.
          - apply bind_Ok in E. destruct E as (r & _ & E).
            assert (Hd0 : In d0 ds) by (apply Hi; now left). assert (Hi' : incl ds0 ds) by (intros z Hz; apply Hi; now right).
            destruct r; apply IH in E; auto; cbn [fs_found]; [congruence|].
            intros x. destruct (fs_had_full st0); auto. congruence. }
        intros Est. eapply G; [exact Est|discriminate|apply incl_refl]. }
      pose proof (Hs ds d eq_refl Hd) as Hp. destruct (vs_parse (od_sem d) _ (po_value o) utf8) as [a r] eqn:Ep.
      destruct r as [|e| |]; auto; try apply ts_Undef; try apply ts_NoFuel. cbn [snd].
      apply ts_Throw, showable_context; auto. eapply Hp. rewrite Ep. reflexivity.
    - cbn [snd]. apply ts_Throw, showable_context; auto. exact (ts_find _ _ _ _ _ _ Ef). }
  specialize (H (pr_options p) (vm_map vm) []).
  destruct (store_options ds (pr_prefix p) (vm_final vm) utf8 (pr_options p) (vm_map vm) []) as [[m nf] r]. cbn [snd] in H.
  destruct r as [|e| |]; cbn [snd]; auto with ts. destruct (store_defaults _ _ _ _). apply ts_Ok.
Qed.

Lemma ts_notify vm :
  (forall k v s, In (k, v) (vm_map vm) -> vv_sem v = Some s -> throws_showable (snd (vs_notify s (vv_value v)))) ->
  throws_showable (snd (notify vm)).
Proof.
  intros H. unfold notify.
  assert (Hr : throws_showable (check_required (vm_required vm) (vm_map vm))).
  { induction (vm_required vm) as [|[o disp] req IH]; cbn [check_required]; auto with ts.
    destruct (sm_find o (vm_map vm)); [destruct (any_empty _); auto|]; apply ts_Throw, showable_required. }
  destruct (check_required _ _) as [|e| |]; cbn [snd]; auto with ts.
  clear Hr. revert H. generalize (vm_map vm) as m0. intros m0 H.
  induction m0 as [|[k v] m IH]; cbn [run_notify]; [apply ts_Ok|].
  assert (IH' : throws_showable (snd (run_notify m))) by (apply IH; intros k0 v0 s0 Hin; apply (H k0); now right).
  destruct (vv_sem v) as [s|] eqn:Es; auto.
  pose proof (H k v s (or_introl eq_refl) Es) as Hn. destruct (vs_notify s (vv_value v)) as [ev r]. cbn [snd] in Hn.
  destruct r; cbn [snd]; auto. destruct (run_notify m). exact IH'.
Qed.

(** ** The semantics of the library *)

Section Sem.
Variable lc : nat -> str -> option Z.
Variable local : str -> outcome str.
Hypothesis Hlocal : forall s, throws_showable (local s).

Lemma ts_assign v (r : outcome value) : throws_showable r -> throws_showable (snd (assign_or v r)).
Proof. intros H e E. apply H. destruct r; cbn in E; congruence. Qed.

Lemma ts_first v : throws_showable (check_first_occurrence v).
Proof. unfold check_first_occurrence. destruct (any_empty v); auto with ts. apply ts_Throw, showable_multiple_occurrences. Qed.

Lemma ts_single xs b : throws_showable (get_single_string xs b).
Proof.
  destruct xs as [|x [|y xs]]; cbn; [destruct b| |]; auto with ts; apply ts_Throw, showable_validation.
Qed.

Lemma ts_push t elem : (forall xs, throws_showable (snd (elem xs))) ->
  forall xs tv, throws_showable (snd (push_tokens t elem tv xs)).
Proof.
  intros H. induction xs as [|x xs IH]; intros tv; cbn [push_tokens]; [apply ts_Ok|].
  pose proof (H [x]) as Hx. destruct (elem [x]) as [a r]. cbn [snd] in Hx.
  destruct r as [|e| |]; cbn [snd]; auto with ts; try (intros e' E; apply Hx; congruence).
  destruct (any_cast t a); auto. apply ts_Throw, showable_plain. reflexivity.
Qed.

Lemma ts_validate t : forall v xs, throws_showable (snd (validate lc t v xs)).
Proof.
  induction t as [| |n|t IH|t IH]; intros v xs; cbn [validate].
  - apply ts_assign. apply ts_bind; [apply ts_first|]. intros _ _. apply ts_bind; [apply ts_single|]. intros s _.
    unfold bool_of_string. apply ts_bind; [apply ts_mapM; apply ts_tolower|]. intros l _.
    repeat match goal with |- throws_showable (if ?b then _ else _) => destruct b end; auto with ts.
    apply ts_Throw, showable_invalid_bool.
  - apply ts_assign. apply ts_bind; [apply ts_first|]. intros _ _. apply ts_bind; [apply ts_single|]. intros; auto with ts.
  - apply ts_assign. apply ts_bind; [apply ts_first|]. intros _ _. apply ts_bind; [apply ts_single|]. intros s _.
    destruct (lc n s); auto with ts. apply ts_Throw, showable_invalid_value.
  - unfold validate_vec. cbv zeta. destruct (any_cast _ _) as [[]|]; try apply ts_Undef.
    pose proof (ts_push t (fun ys => validate lc t None ys) (IH None) xs vs) as H.
    destruct (push_tokens t (fun ys => validate lc t None ys) vs xs). exact H.
  - apply ts_assign. apply ts_bind; [apply ts_first|]. intros _ _. apply ts_bind; [apply ts_single|]. intros _ _.
    pose proof (IH None xs) as H. destruct (validate lc t None xs) as [a r]. cbn [snd] in H. destruct r as [|e| |]; auto with ts.
    + destruct (any_cast t a); auto with ts. apply ts_Throw, showable_plain. reflexivity.
    + intros e' E. apply H. congruence.
Qed.

Lemma ts_codecvt xparse v xs u : (forall v xs, throws_showable (snd (xparse v xs))) ->
  throws_showable (snd (codecvt_parse local xparse v xs u)).
Proof.
  intros H. unfold codecvt_parse. destruct u; auto.
  pose proof (ts_mapM _ _ local xs Hlocal) as Hm. destruct (mapM local xs) as [|e| |]; cbn [snd]; auto with ts.
  intros e' E. apply Hm. congruence.
Qed.

Lemma ts_typed tv v xs u : throws_showable (snd (vs_parse (typed lc local tv) v xs u)).
Proof.
  apply ts_codecvt. intros v' xs'. unfold tv_xparse. destruct xs'; [destruct (tv_implicit tv) as [[? ?]|]|]; try apply ts_Ok; apply ts_validate.
Qed.

Lemma ts_untyped z v xs u : throws_showable (snd (vs_parse (untyped local z) v xs u)).
Proof.
  apply ts_codecvt. intros v' xs'. unfold untyped_xparse. destruct (negb _); [apply ts_Throw, showable_multiple_occurrences|].
  destruct xs' as [|x [|y xs']]; try apply ts_Ok. apply ts_Throw, showable_multiple_values.
Qed.

End Sem.
