(** Minified documents are read back. *)
From Coq Require Import String Ascii List NArith ZArith Bool Arith Lia.
From Verif Require Import StrUtil JsonWriterModel Ast CondModel NormModel NormProofs ProjModel GqlModel GqlSpec GqlChars GqlLex GqlScan GqlGrammar GqlComplete
  GqlBlockProofs GqlText PrintProofs MinifyModel MinifySpec MinifyProofs MinifyDoc MinifyText.
Import ListNotations.
Local Open Scope string_scope.
Local Open Scope list_scope.

(** * The punctuators of a document *)
Definition punct_fit (d : dtok) : Prop := match d with DPunct v => Punctuator v | _ => True end.
Notation Puncts := (Forall punct_fit).
Lemma puncts_framed o c l : punct_fit (DPunct o) -> punct_fit (DPunct c) -> Puncts l -> Puncts (framed o c l).
Proof. intros H1 H2 H. constructor; [exact H1|]. apply Forall_app. split; [exact H|]. constructor; [exact H2|constructor]. Qed.
Lemma puncts_flat {A} (f : A -> list dtok) l : Forall (fun x => Puncts (f x)) l -> Puncts (flat_map f l).
Proof. induction 1; [constructor|]. cbn [flat_map]. apply Forall_app. split; assumption. Qed.
Ltac piece := solve [cbn; auto 20 | exact I].
Lemma puncts_value v : Puncts (value_tokens v).
Proof.
  induction v as [nm|z|b|s|b| |s|l IH|o IH] using gvalue_ind'; cbn [value_tokens]; try solve [repeat (constructor; [piece|]); constructor].
  - apply puncts_framed; [piece|piece|]. apply puncts_flat. exact IH.
  - apply puncts_framed; [piece|piece|]. apply puncts_flat. eapply Forall_impl; [|exact IH]. intros kv H. constructor; [piece|constructor; [piece|exact H]].
Qed.
Lemma puncts_args args : Puncts (argument_tokens args).
Proof.
  unfold argument_tokens. destruct args as [|a args]; [constructor|]. apply puncts_framed; [piece|piece|]. apply puncts_flat, Forall_forall.
  intros kv _. constructor; [piece|constructor; [piece|apply puncts_value]].
Qed.
Lemma puncts_dirs ds : Puncts (directive_tokens ds).
Proof. apply puncts_flat, Forall_forall. intros d _. constructor; [piece|constructor; [piece|apply puncts_args]]. Qed.
Lemma puncts_selection x : Puncts (selection_tokens x).
Proof.
  induction x as [al n args ds sub IH|n ds|tc ds sub IH] using nsel_ind'; cbn [selection_tokens].
  - apply Forall_app. split; [destruct al; repeat (constructor; [piece|]); constructor|]. constructor; [piece|].
    apply Forall_app. split; [apply puncts_args|]. apply Forall_app. split; [apply puncts_dirs|].
    destruct sub; [constructor|]. apply puncts_framed; [piece|piece|]. apply puncts_flat. exact IH.
  - constructor; [piece|]. constructor; [piece|apply puncts_dirs].
  - constructor; [piece|]. apply Forall_app. split; [destruct tc; repeat (constructor; [piece|]); constructor|].
    apply Forall_app. split; [apply puncts_dirs|]. apply puncts_framed; [piece|piece|]. apply puncts_flat. exact IH.
Qed.
Lemma puncts_set l : Puncts (set_tokens l).
Proof. apply puncts_framed; [piece|piece|]. apply puncts_flat, Forall_forall. intros x _. apply puncts_selection. Qed.
Lemma puncts_type t : Puncts (type_tokens t).
Proof.
  induction t as [n|t IH|t IH]; cbn [type_tokens]; [constructor; [piece|constructor]| |].
  - apply puncts_framed; [piece|piece|exact IH].
  - apply Forall_app. split; [exact IH|constructor; [piece|constructor]].
Qed.
Lemma puncts_vars vs : Puncts (vardefs_tokens vs).
Proof.
  unfold vardefs_tokens. destruct vs as [|v vs]; [constructor|]. apply puncts_framed; [piece|piece|]. apply puncts_flat, Forall_forall.
  intros w _. unfold vardef_tokens. constructor; [piece|]. constructor; [piece|]. constructor; [piece|]. apply Forall_app. split; [apply puncts_type|].
  destruct (vd_default w); [|constructor]. constructor; [piece|apply puncts_value].
Qed.
Lemma puncts_document ds : Puncts (document_tokens ds).
Proof.
  apply puncts_flat, Forall_forall. intros [l|k n vs ds' l|n tc ds' l] _; cbn [definition_tokens].
  - apply puncts_set.
  - constructor; [piece|]. apply Forall_app. split; [destruct n; repeat (constructor; [piece|]); constructor|].
    apply Forall_app. split; [apply puncts_vars|]. apply Forall_app. split; [apply puncts_dirs|apply puncts_set].
  - do 4 (constructor; [piece|]). apply Forall_app. split; [apply puncts_dirs|apply puncts_set].
Qed.

(** * Tokens *)
Lemma stops_ends t r : tok_kind t <> KPunct -> stops t r -> plain_ends (tok_kind t) (tok_text t) r.
Proof.
  intros K S. destruct r as [|c r]; [destruct (tok_kind t); cbn; auto|].
  assert (P : puncts c = true -> ~ NameContinue c /\ c <> "034"%char /\ among " ,#!$&():=@[]{}|" c).
  { intros H. assert (D : In c ["("; "["; "{"; ")"; "]"; "}"; "!"; "$"; ":"; "="; "@"; "|"; "&"]%char).
    { unfold puncts, one_of in H. apply existsb_exists in H as (x & Hx & E). apply is_eq in E as ->. exact Hx. }
    cbn [In] in D. repeat match type of D with _ \/ _ => destruct D as [<-|D] end; try contradiction;
      (split; [intros K'; apply name_continue_spec in K'; discriminate K'|split; [discriminate|cbn; auto 30]]). }
  assert (N : (c = " "%char \/ puncts c = true) -> ~ NameContinue c /\ c <> "034"%char /\ among " ,#!$&():=@[]{}|" c).
  { intros [->|H]; [|exact (P H)]. split; [intros K'; apply name_continue_spec in K'; discriminate K'|split; [discriminate|left; reflexivity]]. }
  cbn [stops] in S.
  assert (Q : ~ NameContinue c /\ c <> "034"%char).
  { destruct S as [S|[S|[-> _]]]; [destruct (N (or_introl S)); tauto|destruct (N (or_intror S)); tauto|].
    split; [intros K'; apply name_continue_spec in K'; discriminate K'|discriminate]. }
  assert (M : number t = true -> among " ,#!$&():=@[]{}|" c).
  { intros H. destruct S as [S|[S|[_ S]]]; [apply N; auto|apply N; auto|congruence]. }
  unfold number in M. destruct (tok_kind t); cbn; [congruence|tauto|intros X; apply X; left; apply M; reflexivity| |tauto|exact I].
  intros X. apply X. left. apply M. reflexivity.
Qed.
Lemma plain_scanned' t : plain_lexeme (tok_kind t) (tok_text t) -> scanned t.
Proof.
  intros H. destruct (plain_scanned (tok_kind t) (tok_text t) "" H) as [n Hn].
  - destruct (tok_kind t); cbn; auto.
  - exists "", n. exact Hn.
Qed.
Lemma join_plainly ts : Forall (fun t => plain_lexeme (tok_kind t) (tok_text t)) ts -> calm ts -> forall b, plainly (join_tokens b ts) ts.
Proof.
  induction ts as [|t ts IH]; intros P C b; [constructor|]. pose proof (Forall_inv P) as Pt. pose proof (Forall_inv_tail P) as Ps.
  assert (Sc : Forall scanned ts) by (eapply Forall_impl; [|exact Ps]; intros u; apply plain_scanned').
  assert (G : plainly (tok_text t ++ join_tokens (non_punctuator t) ts) (t :: ts)).
  { destruct t as [k v]. cbn [tok_text tok_kind] in *. apply lexes_token; [exact Pt| |apply IH; [exact Ps|apply C]].
    destruct k eqn:K; [exact I|..]; rewrite <- K; apply (stops_ends (mktok k v)); cbn [tok_kind]; try congruence; rewrite K; apply join_stops; try assumption; cbn; congruence. }
  cbn [join_tokens]. destruct (b && non_punctuator t)%bool; [|exact G].
  apply (lexes_ignored _ _ (String " " "")); [|exact G]. apply ign_char. left. left. reflexivity.
Qed.

Section Back.
  Variable f64_of : string -> option N.
  Variable ryu : N -> string.
  Lemma spelling_plain d : punct_fit d -> token_fit f64_of ryu d ->
    plain_lexeme (tok_kind (spelling ryu d)) (tok_text (spelling ryu d)) /\ means f64_of (spelling ryu d) d.
  Proof.
    destruct d as [v|v|z|b|s]; cbn [punct_fit token_fit spelling tok_kind tok_text]; intros P F.
    - split; constructor. exact P.
    - split; constructor. exact F.
    - split; [constructor; apply int_part|]. rewrite <- (int_says z) at 2. constructor. rewrite int_says. exact F.
    - destruct F as (F1 & F2 & F3). split; constructor; assumption.
    - destruct F as [F|F].
      + destruct (line_written s F) as (-> & r & -> & H). split; [econstructor; exact H|]. constructor.
        clear -H. induction H as [|c r s H1 H2 H3 H4 IH|e v r s H1 H2 IH]; constructor; try assumption. apply H1.
      + destruct (block_written s F) as (-> & r & -> & H1 & H2 & H3 & H4). split; [exact (plain_blocks _ _ H1 H2)|].
        rewrite <- H4. exact (means_block f64_of _ _ _ H1 H3).
  Qed.
  Lemma spelled_each l : Puncts l -> Forall (token_fit f64_of ryu) l ->
    Forall (fun t => plain_lexeme (tok_kind t) (tok_text t)) (map (spelling ryu) l) /\ Forall2 (means f64_of) (map (spelling ryu) l) l.
  Proof.
    induction l as [|d l IH]; intros P F; [split; constructor|].
    destruct (IH (Forall_inv_tail P) (Forall_inv_tail F)) as [I1 I2]. destruct (spelling_plain d (Forall_inv P) (Forall_inv F)) as [S1 S2].
    split; constructor; assumption.
  Qed.
  Lemma written_plainly ds : Forall (token_fit f64_of ryu) (document_tokens ds) ->
    plainly (minify_query_document ryu ds) (map (spelling ryu) (document_tokens ds)) /\
    Forall2 (means f64_of) (map (spelling ryu) (document_tokens ds)) (document_tokens ds) /\
    Forall2 (reads f64_of) (map (spelling ryu) (document_tokens ds)) (document_tokens ds).
  Proof.
    intros F. destruct (spelled_each _ (puncts_document ds) F) as [P M].
    assert (R : Forall2 (reads f64_of) (map (spelling ryu) (document_tokens ds)) (document_tokens ds)).
    { clear -P M. revert P. generalize dependent (map (spelling ryu) (document_tokens ds)). intros us M P. revert P. induction M as [|t d ts l H1 H2 IH]; intros P; constructor.
      - apply means_reads; [exact H1|exact (Forall_inv P)].
      - apply IH. exact (Forall_inv_tail P). }
    split; [|split; assumption]. rewrite document_written. apply join_plainly; [exact P|].
    apply (pace_calm f64_of _ _ R) with (b := false).
    - eapply Forall_impl; [|exact P]. intros t. apply plain_scanned'.
    - rewrite pace_document. discriminate.
  Qed.
  Theorem written_denotes ds : tree_fit f64_of ryu ds -> denotes f64_of (minify_query_document ryu ds) ds.
  Proof.
    intros [O F]. destruct (written_plainly ds F) as (P & M & _). exists (map (spelling ryu) (document_tokens ds)).
    split; [apply (plainly_lexes f64_of); exact P|]. split; [exact O|exact M].
  Qed.
  Lemma written_tokens depth ds : Forall (token_fit f64_of ryu) (document_tokens ds) -> (N.of_nat (document_depth ds) <= depth)%N ->
    tokens depth None (minify_query_document ryu ds) = LexOk (map (spelling ryu) (document_tokens ds)).
  Proof.
    intros F D. destruct (written_plainly ds F) as (P & _ & R). unfold tokens. rewrite (plainly_lexed _ _ P); [reflexivity|lia| |exact I].
    apply (within_reads f64_of _ _ R). apply document_within. exact D.
  Qed.
  Theorem written_parses depth ds : tree_fit f64_of ryu ds -> (N.of_nat (document_depth ds) <= depth)%N ->
    parse_query f64_of depth None (minify_query_document ryu ds) = POk ds.
  Proof.
    intros [O F] D. destruct (written_plainly ds F) as (P & M & _). exact (complete f64_of depth None _ _ ds P O M D I).
  Qed.
  Theorem written_minified ds : tree_fit f64_of ryu ds -> (N.of_nat (document_depth ds) <= 50)%N ->
    minify_query (minify_query_document ryu ds) = Some (minify_query_document ryu ds).
  Proof.
    intros [O F] D. unfold minify_query. rewrite (written_tokens 50 ds F D), document_written. reflexivity.
  Qed.
  Theorem written_injective ds ds' : tree_fit f64_of ryu ds -> tree_fit f64_of ryu ds' ->
    minify_query_document ryu ds = minify_query_document ryu ds' -> ds = ds'.
  Proof.
    intros H H' E.
    pose proof (written_parses (N.of_nat (Nat.max (document_depth ds) (document_depth ds'))) ds H ltac:(lia)) as P.
    pose proof (written_parses (N.of_nat (Nat.max (document_depth ds) (document_depth ds'))) ds' H' ltac:(lia)) as P'.
    rewrite E, P' in P. injection P as ->. reflexivity.
  Qed.

  (** What was read: only strings and floats are in doubt. *)
  Definition doubtful_fit (d : dtok) : Prop := match d with DFloat _ | DStr _ => token_fit f64_of ryu d | _ => True end.
  Lemma read_fit t d : scanned t -> reads f64_of t d -> doubtful_fit d -> token_fit f64_of ryu d.
  Proof.
    destruct t as [k v]. intros (r & n & Sc) R D. cbn [tok_kind tok_text] in *. unfold reads, decode in R. cbn [tok_kind tok_text] in R. destruct k.
    - injection R as <-. exact I.
    - injection R as <-. destruct (scanned_lexeme _ _ _ _ _ Sc) as [L _]; [exact I|discriminate|discriminate|]. inversion L; subst. assumption.
    - destruct (parse_i64 v) as [z|] eqn:E; [|discriminate]. injection R as <-.
      destruct (scanned_lexeme _ _ _ _ _ Sc) as [L _]; [exact I|discriminate|discriminate|]. inversion L; subst.
      apply i64_value in E as [E ->]; assumption.
    - destruct (f64_of v); [|discriminate]. injection R as <-. exact D.
    - destruct (unquote_string v); try discriminate R. injection R as <-. exact D.
    - destruct (unquote_block_string v); try discriminate R. injection R as <-. exact D.
  Qed.
  Lemma read_each limit s ds : parse_query f64_of 50 limit s = POk ds -> Forall doubtful_fit (document_tokens ds) ->
    Forall (token_fit f64_of ryu) (document_tokens ds).
  Proof.
    intros H D. apply parse_query_ok in H as (ts & Ht & _ & R). unfold tokens in Ht. apply lexed_scanned in Ht. clear -D R Ht.
    induction R as [|t d ts l H1 H2 IH]; [constructor|]. constructor.
    - exact (read_fit t d (Forall_inv Ht) H1 (Forall_inv D)).
    - apply IH; [exact (Forall_inv_tail Ht)|exact (Forall_inv_tail D)].
  Qed.
  Theorem read_written limit s ds : parse_query f64_of 50 limit s = POk ds -> Forall doubtful_fit (document_tokens ds) ->
    parse_query f64_of 50 None (minify_query_document ryu ds) = POk ds.
  Proof.
    intros H D. pose proof (read_each _ _ _ H D) as F. pose proof (depth_bounded _ _ _ _ _ H) as B.
    unfold parse_query. rewrite (written_tokens 50 ds F B). apply parse_query_ok in H as (ts & _ & O & _). apply parse_exact.
    split; [exact O|]. apply written_plainly. exact F.
  Qed.
  Theorem two_ways limit s ds ts : parse_query f64_of 50 limit s = POk ds -> Forall doubtful_fit (document_tokens ds) ->
    tokens 50 None s = LexOk ts ->
    (minify_query s = Some (minify_query_document ryu ds) <-> ts = map (spelling ryu) (document_tokens ds)).
  Proof.
    intros H D T. pose proof (read_each _ _ _ H D) as F. pose proof (depth_bounded _ _ _ _ _ H) as B. split.
    - intros E. destruct (minified_tokens f64_of limit s ds H) as (us & Hl & Hm & Hu & _). unfold tokens in Hl.
      pose proof (lex_unlimited _ _ _ _ _ _ Hl 0%N) as Hx. unfold tokens in T. rewrite Hx in T. injection T as <-.
      rewrite Hm in E. injection E as E. rewrite E, (written_tokens 50 ds F B) in Hu. injection Hu as ->. reflexivity.
    - intros ->. unfold minify_query. rewrite T, document_written. reflexivity.
  Qed.
End Back.
