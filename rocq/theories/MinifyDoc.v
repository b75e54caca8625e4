(** A minified document is its tokens with spaces between. *)
From Coq Require Import String Ascii List NArith ZArith Bool Arith Lia.
From Verif Require Import StrUtil Ast CondModel NormModel NormProofs ProjModel GqlModel GqlSpec MinifyModel.
Import ListNotations.
Local Open Scope string_scope.
Local Open Scope list_scope.

Section Document.
  Variable ryu : N -> string.
  (** The token a thing is written as *)
  Definition spelling (d : dtok) : token :=
    match d with
    | DPunct v => mktok KPunct v
    | DName v => mktok KName v
    | DInt z => mktok KInt (i64_text z)
    | DFloat b => mktok KFloat (ryu b)
    | DStr s => mktok (if some_char newline s then KBlock else KString) (quoted_text s)
    end.
  Definition write_token (t : token) (m : minifier) : minifier :=
    if non_punctuator t then write_non_punctuator (tok_text t) m else write_punctuator (tok_text t) m.
  Definition run (ds : list dtok) (m : minifier) : minifier := fold_left (fun m d => write_token (spelling d) m) ds m.
  Lemma run_app a b m : run (a ++ b) m = run b (run a m).
  Proof. apply fold_left_app. Qed.
  Lemma run_punct v ds m : run (DPunct v :: ds) m = run ds (write_punctuator v m).
  Proof. reflexivity. Qed.
  Lemma run_name v ds m : run (DName v :: ds) m = run ds (write_non_punctuator v m).
  Proof. reflexivity. Qed.
  Lemma run_framed o c ds m : run (framed o c ds) m = write_punctuator c (run ds (write_punctuator o m)).
  Proof. unfold framed. rewrite run_punct, run_app. reflexivity. Qed.
  Lemma run_each {A} (w : A -> minifier -> minifier) (f : A -> list dtok) l :
    Forall (fun x => forall m, w x m = run (f x) m) l -> forall m, write_each w l m = run (flat_map f l) m.
  Proof.
    induction 1 as [|x l H Hl IH]; intros m; [reflexivity|]. cbn [flat_map]. rewrite run_app, <- H. apply IH.
  Qed.
  Lemma run_keyed k v m : (forall m, write_value ryu v m = run (value_tokens v) m) ->
    write_value ryu v (write_punctuator ":" (write_non_punctuator k m)) = run (keyed k (value_tokens v)) m.
  Proof. intros H. rewrite H. reflexivity. Qed.
  Lemma value_run v : forall m, write_value ryu v m = run (value_tokens v) m.
  Proof.
    induction v as [nm|z|b|s|b| |s|l IH|o IH] using gvalue_ind'; intros m; try reflexivity.
    - cbn [run value_tokens fold_left spelling]. unfold write_token. cbn [write_value]. unfold write_quoted.
      destruct (some_char newline s); reflexivity.
    - cbn [write_value value_tokens]. rewrite run_framed. f_equal. apply run_each. exact IH.
    - cbn [write_value value_tokens]. rewrite run_framed. f_equal.
      apply (run_each _ (fun kv : string * gvalue => keyed (fst kv) (value_tokens (snd kv)))).
      eapply Forall_impl; [|exact IH]. intros kv H m'. apply run_keyed. exact H.
  Qed.
  Lemma entries_run (l : list (string * gvalue)) m :
    write_each (fun kv m => write_value ryu (snd kv) (write_punctuator ":" (write_non_punctuator (fst kv) m))) l m =
    run (flat_map (fun kv => keyed (fst kv) (value_tokens (snd kv))) l) m.
  Proof.
    apply (run_each _ (fun kv : string * gvalue => keyed (fst kv) (value_tokens (snd kv)))).
    apply Forall_forall. intros kv _ m'. apply run_keyed. apply value_run.
  Qed.
  Lemma arguments_run args m : write_arguments ryu args m = run (argument_tokens args) m.
  Proof.
    unfold write_arguments, argument_tokens. destruct args as [|a args]; [reflexivity|]. rewrite run_framed, <- entries_run. reflexivity.
  Qed.
  Lemma directives_run ds m : write_directives ryu ds m = run (directive_tokens ds) m.
  Proof.
    unfold write_directives, directive_tokens. apply run_each. apply Forall_forall. intros d _ m'. rewrite arguments_run. reflexivity.
  Qed.
  Lemma type_run t : forall m, write_type t m = run (type_tokens t) m.
  Proof.
    induction t as [n|t IH|t IH]; intros m; cbn [write_type type_tokens].
    - reflexivity.
    - rewrite run_framed, <- IH. reflexivity.
    - rewrite run_app, <- IH. reflexivity.
  Qed.
  Lemma variables_run vs m : write_variable_definitions ryu vs m = run (vardefs_tokens vs) m.
  Proof.
    unfold write_variable_definitions, vardefs_tokens. destruct vs as [|v vs]; [reflexivity|]. rewrite run_framed. f_equal.
    apply run_each. apply Forall_forall. intros w _ m'. unfold vardef_tokens. rewrite run_punct, run_name, run_punct, run_app, <- type_run.
    destruct (vd_default w) as [d|]; [|reflexivity]. rewrite run_punct, <- value_run. reflexivity.
  Qed.
  Lemma selection_run x : forall m, write_selection ryu x m = run (selection_tokens x) m.
  Proof.
    induction x as [al n args ds sub IH|n ds|tc ds sub IH] using nsel_ind'; intros m; cbn [write_selection selection_tokens].
    - rewrite run_app, run_name, run_app, run_app, <- arguments_run, <- directives_run.
      assert (E : forall m, match sub with [] => m | _ => write_punctuator "}" (write_each (write_selection ryu) sub (write_punctuator "{" m)) end =
                  run (match sub with [] => [] | _ => framed "{" "}" (flat_map selection_tokens sub) end) m).
      { intros m'. destruct sub as [|y sub]; [reflexivity|]. rewrite run_framed, <- (run_each (write_selection ryu) selection_tokens _ IH). reflexivity. }
      rewrite <- E. destruct al; reflexivity.
    - rewrite run_punct, run_name, <- directives_run. reflexivity.
    - rewrite run_punct, run_app, run_app, run_framed, <- directives_run, <- (run_each (write_selection ryu) selection_tokens _ IH).
      destruct tc; reflexivity.
  Qed.
  Lemma set_run l m : write_selection_set ryu l m = run (set_tokens l) m.
  Proof.
    unfold write_selection_set, set_tokens. rewrite run_framed. f_equal. apply run_each. apply Forall_forall. intros x _. apply selection_run.
  Qed.
  Lemma definition_run d m : write_definition ryu d m = run (definition_tokens d) m.
  Proof.
    destruct d as [l|k n vs ds l|n tc ds l]; cbn [write_definition definition_tokens].
    - apply set_run.
    - rewrite run_name, run_app, run_app, run_app, <- set_run, <- directives_run, <- variables_run. destruct n; reflexivity.
    - rewrite !run_name, run_app, <- set_run, <- directives_run. reflexivity.
  Qed.
  Lemma run_join ds : forall m, buffer (run ds m) = (buffer m ++ join_tokens (last_was_non_punctuator m) (map spelling ds))%string.
  Proof.
    induction ds as [|d ds IH]; intros m; [cbn; rewrite string_app_nil_r; reflexivity|].
    change (run (d :: ds) m) with (run ds (write_token (spelling d) m)). rewrite IH. cbn [map join_tokens].
    unfold write_token. destruct (non_punctuator (spelling d)); cbn [write_non_punctuator write_punctuator buffer last_was_non_punctuator].
    - destruct (last_was_non_punctuator m); cbn [andb]; rewrite !string_app_assoc; reflexivity.
    - rewrite andb_false_r. rewrite string_app_assoc. reflexivity.
  Qed.
  Theorem document_written ds : minify_query_document ryu ds = join_tokens false (map spelling (document_tokens ds)).
  Proof.
    unfold minify_query_document. rewrite (run_each (write_definition ryu) definition_tokens).
    - rewrite run_join. reflexivity.
    - apply Forall_forall. intros d _. apply definition_run.
  Qed.
End Document.
