(* Lemmas on the choice of a document. *)
From Coq Require Import String Ascii List Bool NArith DecimalString.
From Verif Require Import StrUtil Utf8 DocidModel DocidSpec DocidText.
Import ListNotations.
Local Open Scope string_scope.
Local Open Scope list_scope.

(* members *)
Lemma oget_some : forall {A} k (o : list (string * A)) v, oget k o = Some v <->
  exists b a, o = b ++ (k, v) :: a /\ forall x, ~ In (k, x) b.
Proof.
  intros A k o v. induction o as [|[k' w] o IH]; cbn [oget].
  - split; [discriminate|]. intros ([|] & a & E & _); discriminate E.
  - destruct (String.eqb_spec k' k) as [->|N].
    + split.
      * intros [= ->]. exists [], o. split; [reflexivity|]. intros x [].
      * intros ([|[k2 x] b] & a & E & H).
        -- now injection E as ->.
        -- injection E as <- <- _. exfalso. apply (H w). now left.
    + rewrite IH. split.
      * intros (b & a & -> & H). exists ((k', w) :: b), a. split; [reflexivity|].
        intros x [E|E]; [injection E as E _; contradiction|now apply (H x)].
      * intros ([|[k2 x] b] & a & E & H).
        -- injection E as E _ _. contradiction.
        -- injection E as <- <- ->. exists b, a. split; [reflexivity|]. intros x K. apply (H x). now right.
Qed.

Lemma id_value_iff : forall v s, id_value v = Some s <-> names v s.
Proof.
  intros v s. split.
  - destruct v; cbn; try discriminate; intros [= <-]; constructor.
  - intros []; reflexivity.
Qed.

Lemma along_iff : forall segs v s, along v segs = Some s <-> exists w, reaches v segs w /\ names w s.
Proof.
  induction segs as [|k segs IH]; intros v s; cbn [along].
  - rewrite id_value_iff. split; [intros H; exists v; split; [constructor|exact H]|].
    intros (w & R & H). now inversion R; subst.
  - destruct (child v k) as [u|] eqn:EC.
    + rewrite IH. destruct v as [| | |o|]; try discriminate. cbn [child] in EC.
      pose proof (proj1 (oget_some _ _ _) EC) as (b & a & -> & H). split.
      * intros (w & R & K). exists w. split; [now constructor|exact K].
      * intros (w & R & K). exists w. split; [|exact K].
        inversion R as [|b' ? u' a' ? ? H' R' EO]; subst.
        assert (E : oget k (b ++ (k, u) :: a) = Some u').
        { apply oget_some. exists b', a'. rewrite EO. split; [reflexivity|exact H']. }
        rewrite EC in E. now injection E as <-.
    + split; [discriminate|]. intros (w & R & K). inversion R as [|b ? u a ? ? H R' EO]; subst. cbn [child] in EC.
      assert (E : oget k (b ++ (k, u) :: a) = Some u) by (apply oget_some; eauto). congruence.
Qed.

(* order of selectors *)
Lemma first_id_iff : forall sels c id, first_id sels c = Some id <->
  exists pre s post, sels = pre ++ s :: post /\ Forall (fun t => extract t c = None) pre /\ extract s c = Some id.
Proof.
  induction sels as [|s sels IH]; intros c id; cbn [first_id].
  - split; [discriminate|]. intros ([|] & ? & ? & E & _); discriminate E.
  - destruct (extract s c) as [i|] eqn:ES.
    + split.
      * intros [= <-]. exists [], s, sels. repeat split; [constructor|exact ES].
      * intros ([|t pre] & s' & post & E & F & H).
        -- injection E as <- _. congruence.
        -- injection E as <- _. inversion F; congruence.
    + rewrite IH. split.
      * intros (pre & s' & post & -> & F & H). exists (s :: pre), s', post. repeat split; [now constructor|exact H].
      * intros ([|t pre] & s' & post & E & F & H).
        -- injection E as <- _. congruence.
        -- injection E as <- ->. inversion F; subst. exists pre, s', post. auto.
Qed.

Lemma bind_nonempty : forall o id, bind_id o = Some id -> id <> "".
Proof. intros [s|] id H; [|discriminate]. apply doc_id_some in H. destruct H as [N ->]. exact N. Qed.

Lemma extract_nonempty : forall s c id, extract s c = Some id -> id <> "".
Proof.
  intros [p|n|t] c id; cbn [extract].
  - destruct (String.eqb p "documentId"); apply bind_nonempty.
  - destruct (c_query c); [apply bind_nonempty|discriminate].
  - destruct (c_relative c) as [p|]; [|discriminate]. intros H. apply path_iff in H.
    destruct H as (ps & ids & _ & _ & F). apply fits_id in F. now inversion F.
Qed.

Lemma first_nonempty : forall sels c id, first_id sels c = Some id -> id <> "".
Proof.
  intros sels c id H. apply first_id_iff in H. destruct H as (pre & s & post & _ & _ & E).
  eapply extract_nonempty; exact E.
Qed.

(* ids do not depend on the query of the client *)
Definition same_view (c1 c2 : context) : Prop :=
  p_extensions (c_params c1) = p_extensions (c_params c2) /\ c_docid c1 = c_docid c2 /\
  c_extra c1 = c_extra c2 /\ c_relative c1 = c_relative c2 /\ c_query c1 = c_query c2.

Lemma extract_view : forall s c1 c2, same_view c1 c2 -> extract s c1 = extract s c2.
Proof.
  intros [p|n|t] c1 c2 (E1 & E2 & E3 & E4 & E5); cbn [extract].
  - rewrite E2. unfold json_path. now rewrite E1, E3.
  - now rewrite E5.
  - now rewrite E4.
Qed.

Lemma first_view : forall sels c1 c2, same_view c1 c2 -> first_id sels c1 = first_id sels c2.
Proof.
  induction sels as [|s sels IH]; intros c1 c2 V; [reflexivity|]. cbn [first_id].
  now rewrite (extract_view s c1 c2 V), (IH c1 c2 V).
Qed.

Lemma select_view : forall cf rq p1 p2 d x, p_extensions p1 = p_extensions p2 ->
  select cf rq p1 d x = select cf rq p2 d x.
Proof. intros. unfold select. destruct (enabled cf); [|reflexivity]. apply first_view. repeat split. exact H. Qed.

(* fields that are captured only when a selector needs them *)
Lemma extract_no_extra : forall s c x, needs_extra s = false ->
  extract s c = extract s (mkcontext (c_params c) (c_docid c) x (c_relative c) (c_query c)).
Proof.
  intros [p|n|t] c x; cbn [needs_extra extract c_docid c_query c_relative]; try reflexivity.
  destruct (String.eqb p "documentId"); [reflexivity|].
  destruct (String.eqb_spec p "extensions.persistedQuery.sha256Hash") as [->|_].
  { intros _. unfold json_path.
    assert (E : split_on "." "extensions.persistedQuery.sha256Hash" = ["extensions"; "persistedQuery"; "sha256Hash"])
      by (vm_compute; reflexivity).
    rewrite E, String.eqb_refl. reflexivity. }
  unfold json_path. destruct (split_on "." p) as [|f r]; [reflexivity|]. intros H. apply negb_false_iff in H.
  rewrite H. reflexivity.
Qed.

Lemma first_no_extra : forall sels c x, existsb needs_extra sels = false ->
  first_id sels c = first_id sels (mkcontext (c_params c) (c_docid c) x (c_relative c) (c_query c)).
Proof.
  induction sels as [|s sels IH]; intros c x H; [reflexivity|]. cbn [existsb] in H. apply orb_false_iff in H.
  destruct H as [H1 H2]. cbn [first_id]. rewrite <- (extract_no_extra s c x H1), <- (IH c x H2). reflexivity.
Qed.

Definition blank (b : body) : body :=
  mkbody (b_query b) (b_opname b) (b_variables b) (b_extensions b) (b_docid b) None.

Ltac entry k := repeat match goal with |- context [String.eqb k ?s] => destruct (String.eqb k s) end.

Lemma entry_blank : forall b k v, body_entry (blank b) k v = option_map blank (body_entry b k v).
Proof.
  intros [q o vs es d x] k v. unfold body_entry, blank. cbn.
  entry k; cbn; try reflexivity;
    match goal with |- context [once ?a ?b] => destruct (once a b); reflexivity end.
Qed.

Lemma entries_blank : forall l b, body_entries (blank b) l = option_map blank (body_entries b l).
Proof.
  induction l as [|[k v] l IH]; intros b; [reflexivity|]. cbn [body_entries]. rewrite entry_blank.
  destruct (body_entry b k v) as [b'|]; [apply IH|reflexivity].
Qed.

Lemma capture_params : forall l, read_body false l = option_map blank (read_body true l).
Proof. intros l. exact (entries_blank l (mkbody None None None None None (Some []))). Qed.

Lemma capture_enough : forall cf rq l,
  match read_body (enabled cf && existsb needs_extra (selectors cf)) l with
  | Some b => Some (body_params b, select cf rq (body_params b) (b_docid b) (b_extra b))
  | None => None
  end =
  match read_body true l with
  | Some b => Some (body_params b, select cf rq (body_params b) (b_docid b) (b_extra b))
  | None => None
  end.
Proof.
  intros cf rq l. destruct (enabled cf && existsb needs_extra (selectors cf)) eqn:E; [reflexivity|].
  rewrite capture_params. destruct (read_body true l) as [b|]; [|reflexivity].
  cbn [option_map]. unfold select. destruct (enabled cf); [|reflexivity]. cbn [andb] in E.
  f_equal. f_equal. unfold blank. cbn [b_docid b_extra].
  rewrite (first_no_extra _ _ (b_extra b) E). reflexivity.
Qed.

(* bodies that differ in the query *)
Definition twin (b1 b2 : body) : Prop :=
  (b_query b1 = None <-> b_query b2 = None) /\ b_opname b1 = b_opname b2 /\ b_variables b1 = b_variables b2 /\
  b_extensions b1 = b_extensions b2 /\ b_docid b1 = b_docid b2 /\ b_extra b1 = b_extra b2.

Definition twins (o1 o2 : option body) : Prop :=
  match o1, o2 with
  | Some b1, Some b2 => twin b1 b2
  | None, None => True
  | _, _ => False
  end.

Lemma entry_twin : forall b1 b2 k v1 v2, twin b1 b2 ->
  (k = "query" -> (exists s, v1 = PStr s) /\ (exists s, v2 = PStr s)) -> (k <> "query" -> v1 = v2) ->
  twins (body_entry b1 k v1) (body_entry b2 k v2).
Proof.
  intros [q1 o vs es d x] [q2 o2 vs2 es2 d2 x2] k v1 v2 (HQ & E1 & E2 & E3 & E4 & E5) HS HN.
  cbn in HQ, E1, E2, E3, E4, E5. subst. unfold body_entry.
  cbn [b_query b_opname b_variables b_extensions b_docid b_extra].
  destruct (String.eqb_spec k "query") as [->|NK].
  - destruct (HS eq_refl) as [[s1 ->] [s2 ->]]. cbn [as_string].
    destruct q1 as [a|], q2 as [b|]; cbn.
    + exact I.
    + exfalso. destruct HQ as [_ HQ]. discriminate (HQ eq_refl).
    + exfalso. destruct HQ as [HQ _]. discriminate (HQ eq_refl).
    + repeat split; discriminate.
  - rewrite (HN NK).
    destruct (String.eqb k "operationName"); [destruct (once o2 (as_string v2)); cbn; [repeat split; tauto|exact I]|].
    destruct (String.eqb k "variables"); [destruct (once vs2 (as_map v2)); cbn; [repeat split; tauto|exact I]|].
    destruct (String.eqb k "extensions"); [destruct (once es2 (as_map v2)); cbn; [repeat split; tauto|exact I]|].
    destruct (String.eqb k "documentId"); [destruct (once d2 (as_docid v2)); cbn; [repeat split; tauto|exact I]|].
    cbn. repeat split; tauto.
Qed.

Lemma entries_twin : forall l1 l2, same_but_query l1 l2 -> forall b1 b2, twin b1 b2 ->
  twins (body_entries b1 l1) (body_entries b2 l2).
Proof.
  intros l1 l2 F. induction F as [|[k v1] [k2 v2] l1 l2 (EK & HS & HN) F IH]; intros b1 b2 T; [exact T|].
  cbn [fst snd] in *. subst k2. cbn [body_entries].
  pose proof (entry_twin b1 b2 k v1 v2 T HS HN) as K.
  destruct (body_entry b1 k v1), (body_entry b2 k v2); try contradiction; [now apply IH|exact I].
Qed.

Lemma twin_start : forall x, twin (mkbody None None None None None x) (mkbody None None None None None x).
Proof. intros x. repeat split; reflexivity. Qed.

Section Prep.
Variable parse_map : string -> option (list (string * pvalue)).

Definition twin_op (o1 o2 : operation) : Prop :=
  o_id o1 = o_id o2 /\ set_query None (o_params o1) = set_query None (o_params o2).

Lemma decode_apart : forall cf rq s1 s2, apart s1 s2 ->
  match decode parse_map cf rq s1, decode parse_map cf rq s2 with
  | Good o1, Good o2 => twin_op o1 o2
  | Fail f1, Fail f2 => f1 = f2
  | _, _ => False
  end.
Proof.
  intros cf rq s1 s2 H. destruct H as [q1 q2 o v e|q1 q2 o d v e|ct l1 l2 F]; cbn [decode].
  - split; [|reflexivity]. cbn [o_id]. apply select_view. reflexivity.
  - unfold get_params. cbn [g_variables g_extensions g_query g_opname g_docid].
    destruct (parse_opt parse_map v BadVariables) as [vs|f]; [|reflexivity].
    destruct (parse_opt parse_map e BadExtensions) as [es|f]; [|reflexivity].
    split; [|reflexivity]. cbn [o_id]. apply select_view. reflexivity.
  - destruct ct as [ct|]; [|reflexivity]. destruct (negb (contains "application/json" ct)); [reflexivity|].
    unfold read_body.
    pose proof (entries_twin l1 l2 F _ _ (twin_start
      (if enabled cf && existsb needs_extra (selectors cf) then Some [] else None))) as T.
    destruct (body_entries _ l1) as [b1|], (body_entries _ l2) as [b2|]; try contradiction; [|reflexivity].
    destruct T as (HQ & E1 & E2 & E3 & E4 & E5). unfold twin_op, body_params. cbn [o_id o_params].
    rewrite E4, E5. split.
    + apply select_view. exact E3.
    + unfold set_query. cbn. now rewrite E1, E2, E3.
Qed.

Lemma set_twice : forall q r p, set_query q (set_query r p) = set_query q p.
Proof. reflexivity. Qed.

Lemma required_apart : forall resolver cf rq s1 s2, enabled cf = true -> apart s1 s2 ->
  prepare parse_map resolver (Some true) false cf rq s1 = prepare parse_map resolver (Some true) false cf rq s2.
Proof.
  intros resolver cf rq s1 s2 EN A. pose proof (decode_apart cf rq s1 s2 A) as D. unfold prepare.
  destruct (decode parse_map cf rq s1) as [o1|f1], (decode parse_map cf rq s2) as [o2|f2]; try contradiction; [|now subst].
  destruct D as [EI EP]. unfold enforce. rewrite EN. cbn [negb andb]. rewrite EI.
  destruct (o_id o2) as [id|]; [|reflexivity]. rewrite EP. reflexivity.
Qed.

Lemma required_stored : forall resolver cf rq src op, enabled cf = true ->
  prepare parse_map resolver (Some true) false cf rq src = Good op ->
  exists client id f text, decode parse_map cf rq src = Good client /\ o_id client = Some id /\
    resolver = Some f /\ f id = inl text /\ p_query (o_params op) = Some text /\ o_id op = Some id /\
    set_query None (o_params op) = set_query None (o_params client).
Proof.
  intros resolver cf rq src op EN. unfold prepare. destruct (decode parse_map cf rq src) as [c|f]; [|discriminate].
  unfold enforce. rewrite EN. cbn [negb andb]. destruct (o_id c) as [id|] eqn:EI; [|discriminate].
  cbn [p_query o_params set_query]. unfold fill. cbn [o_id].
  destruct resolver as [f|]; [|discriminate]. destruct (f id) as [text|e] eqn:EF; [|discriminate].
  intros [= <-]. exists c, id, f, text. repeat split; assumption.
Qed.

Lemma required_missing : forall resolver cf rq src c, enabled cf = true ->
  decode parse_map cf rq src = Good c -> o_id c = None ->
  prepare parse_map resolver (Some true) false cf rq src = Fail IdRequired.
Proof. intros resolver cf rq src c EN ED EI. unfold prepare, enforce. now rewrite ED, EN, EI. Qed.

Lemma query_kept : forall resolver need skip cf rq src c q, enabled cf = true -> (need && negb skip)%bool = false ->
  decode parse_map cf rq src = Good c -> p_query (o_params c) = Some q ->
  prepare parse_map resolver (Some need) skip cf rq src = Good (mkop (o_params c) None).
Proof.
  intros resolver need skip cf rq src c q EN EK ED EQ. unfold prepare, enforce.
  rewrite ED, EN, EK. cbn [negb]. rewrite EQ. cbn [o_params]. now rewrite EQ.
Qed.

Lemma query_absent : forall resolver need skip cf rq src c, enabled cf = true -> (need && negb skip)%bool = false ->
  decode parse_map cf rq src = Good c -> p_query (o_params c) = None ->
  prepare parse_map resolver (Some need) skip cf rq src =
    match o_id c, resolver with
    | None, _ => Good c
    | Some _, None => Fail NoStorage
    | Some id, Some f => match f id with
                         | inl text => Good (mkop (mkparams (Some text) (p_opname (o_params c))
                             (p_variables (o_params c)) (p_extensions (o_params c))) (Some id))
                         | inr e => Fail (Unresolved e)
                         end
    end.
Proof.
  intros resolver need skip cf rq src c EN EK ED EQ. unfold prepare, enforce.
  rewrite ED, EN, EK. cbn [negb]. rewrite EQ. unfold fill. rewrite EQ.
  destruct (o_id c) as [id|]; [|reflexivity]. destruct resolver as [f|]; reflexivity.
Qed.

Lemma disabled_plain : forall resolver r skip cf rq src, enabled cf = false ->
  prepare parse_map resolver r skip cf rq src =
    match decode parse_map cf rq src with Good c => Good (mkop (o_params c) None) | Fail f => Fail f end.
Proof.
  intros resolver r skip cf rq src EN. unfold prepare, enforce. rewrite EN.
  destruct (decode parse_map cf rq src); reflexivity.
Qed.

(* a request is never run without a text and with an id *)
Lemma id_means_text : forall resolver r skip cf rq src op id,
  prepare parse_map resolver r skip cf rq src = Good op -> o_id op = Some id ->
  exists f text, resolver = Some f /\ f id = inl text /\ p_query (o_params op) = Some text.
Proof.
  intros resolver r skip cf rq src op id H HI. unfold prepare in H.
  destruct (decode parse_map cf rq src) as [c|]; [|discriminate].
  destruct (enabled cf) eqn:EN.
  2:{ unfold enforce in H. rewrite EN in H. injection H as <-. discriminate HI. }
  unfold enforce in H. rewrite EN in H. cbn [negb] in H. destruct r as [need|]; [|discriminate].
  assert (FILL : forall o, p_query (o_params o) = None -> fill resolver o = Good op ->
    exists f text, resolver = Some f /\ f id = inl text /\ p_query (o_params op) = Some text).
  { intros o EO F. unfold fill in F. destruct (o_id o) as [i|] eqn:EI.
    - destruct resolver as [f|]; [|discriminate]. destruct (f i) as [text|] eqn:EF; [|discriminate].
      injection F as <-. injection HI as <-. exists f, text. auto.
    - injection F as <-. congruence. }
  destruct (need && negb skip)%bool.
  - destruct (o_id c) as [i|] eqn:EI; [|discriminate]. cbn [o_params set_query p_query] in H.
    refine (FILL _ _ H). reflexivity.
  - destruct (p_query (o_params c)) as [q|] eqn:EQ.
    + cbn [o_params] in H. rewrite EQ in H. injection H as <-. discriminate HI.
    + rewrite EQ in H. exact (FILL _ EQ H).
Qed.
End Prep.

(* repeated fields of a body *)
Lemma once_query : forall l b b', body_entries b l = Some b' ->
  match b_query b with
  | Some s => b_query b' = Some s /\ (forall v, ~ In ("query", v) l)
  | None => (b_query b' = None /\ (forall v, In ("query", v) l -> v = PNull)) \/
            exists s pre post, b_query b' = Some s /\ l = pre ++ ("query", PStr s) :: post /\
              (forall v, In ("query", v) pre -> v = PNull) /\ (forall v, ~ In ("query", v) post)
  end.
Proof.
  induction l as [|[k v] l IH]; intros b b' H; cbn [body_entries] in H.
  - injection H as <-. destruct (b_query b); [split; [reflexivity|intros v []]|left; split; [reflexivity|intros v []]].
  - destruct (body_entry b k v) as [b1|] eqn:E1; [|discriminate]. specialize (IH b1 b' H). clear H.
    destruct (String.eqb_spec k "query") as [->|NK].
    + unfold body_entry in E1. rewrite String.eqb_refl in E1.
      destruct (b_query b) as [s|] eqn:EB; cbn [once] in E1; [discriminate|].
      destruct v as [|s| | |]; cbn [as_string] in E1; try discriminate; injection E1 as <-; cbn [b_query] in IH.
      * destruct IH as [[Q F]|(s & pre & post & Q & -> & P1 & P2)].
        -- left. split; [exact Q|]. intros v [K|K]; [now injection K as <-|now apply F].
        -- right. exists s, (("query", PNull) :: pre), post. repeat split; [exact Q| |exact P2].
           intros v [K|K]; [now injection K as <-|now apply P1].
      * right. destruct IH as [Q F]. exists s, [], l. repeat split; [exact Q|intros v []|exact F].
    + assert (EQ : b_query b1 = b_query b).
      { unfold body_entry in E1. apply String.eqb_neq in NK. rewrite NK in E1. revert E1.
        destruct (String.eqb k "operationName"); [destruct (once (b_opname b) (as_string v)); intros [= <-]; reflexivity|].
        destruct (String.eqb k "variables"); [destruct (once (b_variables b) (as_map v)); intros [= <-]; reflexivity|].
        destruct (String.eqb k "extensions"); [destruct (once (b_extensions b) (as_map v)); intros [= <-]; reflexivity|].
        destruct (String.eqb k "documentId"); [destruct (once (b_docid b) (as_docid v)); intros [= <-]; reflexivity|].
        intros [= <-]; reflexivity. }
      rewrite EQ in IH. destruct (b_query b) as [s|].
      * destruct IH as [Q F]. split; [exact Q|]. intros w [K|K]; [injection K as K _; contradiction|now apply (F w)].
      * destruct IH as [[Q F]|(s & pre & post & Q & -> & P1 & P2)].
        -- left. split; [exact Q|]. intros w [K|K]; [injection K as K _; contradiction|now apply F].
        -- right. exists s, ((k, v) :: pre), post. repeat split; [exact Q| |exact P2].
           intros w [K|K]; [injection K as K _; contradiction|now apply P1].
Qed.

Lemma body_query : forall capture l b s, read_body capture l = Some b -> b_query b = Some s ->
  exists pre post, l = pre ++ ("query", PStr s) :: post /\
    (forall v, In ("query", v) pre -> v = PNull) /\ (forall v, ~ In ("query", v) post).
Proof.
  intros capture l b s H Q. pose proof (once_query _ _ _ H) as K. cbn [b_query] in K.
  destruct K as [[K _]|(s' & pre & post & K & E & P)]; [congruence|].
  assert (s' = s) by congruence. subst. eauto.
Qed.

Lemma no_body_query : forall capture l b, read_body capture l = Some b -> b_query b = None ->
  forall v, In ("query", v) l -> v = PNull.
Proof.
  intros capture l b H Q. pose proof (once_query _ _ _ H) as K. cbn [b_query] in K.
  destruct K as [[_ K]|(s' & pre & post & K & _)]; [exact K|congruence].
Qed.

(* websocket messages carry no document id *)
Lemma override_no_docid : forall rq cf p, enabled cf = true -> selectors cf = [JsonPath "documentId"] ->
  select cf rq p None None = None.
Proof. intros rq cf p EN ES. unfold select. rewrite EN, ES. reflexivity. Qed.

(* what each kind of selector takes *)
Lemma hget_some : forall {A} k (o : list (string * A)) v, hget k o = Some v <->
  exists b a, o = b ++ (k, v) :: a /\ forall x, ~ In (k, x) a.
Proof.
  intros A k o. induction o as [|[k' w] o IH]; intros v; cbn [hget].
  - split; [discriminate|]. intros ([|] & a & E & _); discriminate E.
  - destruct (hget k o) as [u|] eqn:EH.
    + pose proof (proj1 (IH u) eq_refl) as (b & a & EO & N). split.
      * intros [= <-]. exists ((k', w) :: b), a. rewrite EO. split; [reflexivity|exact N].
      * intros ([|[k2 x] b2] & a2 & E & N2).
        -- injection E as E1 E2 E3. exfalso. apply (N2 u). rewrite <- E3, EO. apply in_elt.
        -- injection E as E1 E2 E3. apply IH. exists b2, a2. split; [exact E3|exact N2].
    + destruct (String.eqb_spec k' k) as [->|NK].
      * split.
        -- intros [= ->]. exists [], o. split; [reflexivity|]. intros x K. clear IH.
           induction o as [|[k2 y] o IHo]; [destruct K|]. cbn [hget] in EH.
           destruct (hget k o) eqn:E2; [discriminate|]. destruct (String.eqb_spec k2 k) as [->|N2]; [discriminate|].
           destruct K as [K|K]; [injection K as K _; contradiction|now apply IHo].
        -- intros ([|[k2 x] b2] & a2 & E & N2).
           ++ now injection E as ->.
           ++ injection E as E1 E2 E3. assert (K : None = Some v) by (apply IH; exists b2, a2; split; [exact E3|exact N2]). discriminate K.
      * split; [discriminate|]. intros ([|[k2 x] b2] & a2 & E & N2).
        -- injection E as E1 _ _. contradiction.
        -- injection E as E1 E2 E3. assert (K : None = Some v) by (apply IH; exists b2, a2; split; [exact E3|exact N2]). discriminate K.
Qed.

Lemma bind_iff : forall o id, bind_id o = Some id <-> o = Some id /\ id <> "".
Proof.
  intros [s|] id; cbn [bind_id].
  - rewrite doc_id_some. split; [intros [N ->]; auto|intros [[= ->] N]; auto].
  - split; [discriminate|]. intros [K _]; discriminate K.
Qed.

Lemma concat_fold : forall ps p, String.concat "." (p :: ps) =
  (p ++ fold_right (fun q t => String "."%char (q ++ t)) "" ps)%string.
Proof.
  induction ps as [|q ps IH]; intros p.
  - cbn [String.concat fold_right]. now rewrite string_app_nil_r.
  - change (String.concat "." (p :: q :: ps)) with (p ++ "." ++ String.concat "." (q :: ps))%string.
    rewrite IH. reflexivity.
Qed.

Lemma dotted : forall ps p, Forall (lacks "."%char) (p :: ps) ->
  split_on "."%char (String.concat "." (p :: ps)) = p :: ps.
Proof. intros ps p F. inversion F; subst. rewrite concat_fold. now apply split_slashed. Qed.

Lemma docid_sel : forall c id, extract (JsonPath "documentId") c = Some id <-> c_docid c = Some id /\ id <> "".
Proof. intros c id. cbn [extract]. rewrite String.eqb_refl. apply bind_iff. Qed.

Lemma along_map_iff : forall o segs s, along_map o segs = Some s <->
  exists k rest b v a w, segs = k :: rest /\ o = b ++ (k, v) :: a /\ (forall x, ~ In (k, x) a) /\
    reaches v rest w /\ names w s.
Proof.
  intros o [|k rest] s; cbn [along_map].
  - split; [discriminate|]. intros (? & ? & ? & ? & ? & ? & E & _). discriminate E.
  - destruct (hget k o) as [v|] eqn:EH.
    + rewrite along_iff. pose proof (proj1 (hget_some _ _ _) EH) as (b & a & EO & N). split.
      * intros (w & R & K). exists k, rest, b, v, a, w. auto.
      * intros (k' & rest' & b' & v' & a' & w & E & EO' & N' & R & K). injection E as <- <-.
        assert (E2 : hget k o = Some v') by (apply hget_some; exists b', a'; split; [exact EO'|exact N']).
        rewrite EH in E2. injection E2 as <-. eauto.
    + split; [discriminate|]. intros (k' & rest' & b' & v' & a' & w & E & EO' & N' & R & K). injection E as <- <-.
      assert (E2 : hget k o = Some v') by (apply hget_some; exists b', a'; split; [exact EO'|exact N']). congruence.
Qed.

Lemma json_sel : forall first rest c id, Forall (lacks "."%char) (first :: rest) ->
  String.concat "." (first :: rest) <> "documentId" ->
  first <> "query" -> first <> "operationName" -> first <> "variables" ->
  extract (JsonPath (String.concat "." (first :: rest))) c = Some id <->
  id <> "" /\ exists o, (if String.eqb first "extensions" then p_extensions (c_params c) else c_extra c) = Some o /\
    exists k rest' b v a w, (if String.eqb first "extensions" then rest else first :: rest) = k :: rest' /\
      o = b ++ (k, v) :: a /\ (forall x, ~ In (k, x) a) /\ reaches v rest' w /\ names w id.
Proof.
  intros first rest c id F ND N1 N2 N3. unfold extract. apply String.eqb_neq in ND. rewrite ND, bind_iff, dotted by assumption.
  unfold json_path. apply String.eqb_neq in N1, N2, N3. rewrite N1, N2, N3. cbn [orb].
  destruct (String.eqb first "extensions").
  - destruct (p_extensions (c_params c)) as [o|].
    + rewrite along_map_iff. split.
      * intros [H N]. split; [exact N|]. exists o. split; [reflexivity|exact H].
      * intros [N (o' & E & H)]. injection E as <-. auto.
    + split; [intros [K _]; discriminate K|]. intros [_ (o' & E & _)]. discriminate E.
  - destruct (c_extra c) as [o|].
    + change (match hget first o with Some v => along v rest | None => None end) with (along_map o (first :: rest)).
      rewrite along_map_iff. split.
      * intros [H N]. split; [exact N|]. exists o. split; [reflexivity|exact H].
      * intros [N (o' & E & H)]. injection E as <-. auto.
    + split; [intros [K _]; discriminate K|]. intros [_ (o' & E & _)]. discriminate E.
Qed.

Lemma query_sel : forall name c id, name <> "" -> lacks amp name -> lacks eqs name ->
  extract (UrlQueryParam name) c = Some id <->
  id <> "" /\ exists ps s, c_query c = Some (String.concat "&" ps) /\ ps <> [] /\ Forall (lacks amp) ps /\
    first_value name ps (Some s) /\ decode_if_needed s = Some id.
Proof.
  intros name c id N LA LE. unfold extract. destruct (c_query c) as [raw|].
  - rewrite bind_iff. unfold query_param. split.
    + intros [H NI]. split; [exact NI|]. destruct (every_query raw) as (ps & NP & F & ->).
      destruct (find_first_value (String.concat "&" ps) name) as [s|] eqn:E; [|discriminate].
      exists ps, s. repeat split; try assumption. now apply query_first.
    + intros [NI (ps & s & E & NP & F & H & D)]. injection E as ->.
      apply (query_first name ps N LA LE NP F) in H. rewrite H. auto.
  - split; [discriminate|]. intros [_ (ps & s & E & _)]. discriminate E.
Qed.
