From Coq Require Import String Ascii List Bool NArith Lia.
From Verif Require Import StrUtil HeadersModel HeadersSpec HeadersProofs CacheControlModel
  CorsModel CorsSpec.
Import ListNotations.
Local Open Scope string_scope.

Section P.
Context (matches : list string -> string -> bool).

(** ** Which policy governs *)
Lemma existsb_eqb_in o l : existsb (fun x => String.eqb x o) l = true <-> In o l.
Proof.
  rewrite existsb_exists. split.
  - intros [x [Hx E]]. apply String.eqb_eq in E. subst. exact Hx.
  - intro H. exists o. split; [exact H|apply String.eqb_refl].
Qed.

Lemma rule_covers p g o :
  matches_origin matches (rule_from_config p g) o = true <-> covers matches p o.
Proof.
  unfold matches_origin, rule_from_config, covers. cbn [r_origins r_pattern].
  set (os := match pc_origins p with Some l => l | None => [] end).
  destruct (existsb (fun x => String.eqb x o) os) eqn:E.
  - split; [intros _|reflexivity]. left. unfold os in E.
    destruct (pc_origins p) as [l|]; [|discriminate].
    exists l. split; [reflexivity|]. apply existsb_eqb_in. exact E.
  - assert (N : ~ (exists l, pc_origins p = Some l /\ In o l)).
    { intros [l [El Hl]]. unfold os in E. rewrite El in E.
      apply existsb_eqb_in in Hl. congruence. }
    split.
    + intro H. right. destruct (pc_match p) as [[|a ps]|]; cbn [build_regex_many] in H;
        try discriminate.
      exists (a :: ps). split; [reflexivity|]. split; [discriminate|exact H].
    + intros [H|[ps [Ep [Hn Hm]]]]; [contradiction|]. rewrite Ep.
      destruct ps; [congruence|]. cbn [build_regex_many]. exact Hm.
Qed.

Definition compiled_of (c : cors_cfg) (g : option policy_cfg) : compiled :=
  match g with Some p => policy_from_config p (global_policy c) | None => global_policy c end.

Lemma find_map_first (A B : Type) (f : A -> B) (t : B -> bool) l :
  match find t (map f l) with
  | Some b => exists pre p post, l = (pre ++ p :: post)%list /\ b = f p /\ t (f p) = true /\
                (forall q, In q pre -> t (f q) = false)
  | None => forall q, In q l -> t (f q) = false
  end.
Proof.
  induction l as [|x l IH]; cbn [map find].
  - intros q [].
  - destruct (t (f x)) eqn:E.
    + exists [], x, l. split; [reflexivity|]. split; [reflexivity|]. split; [exact E|].
      intros q [].
    + destruct (find t (map f l)) as [b|].
      * destruct IH as [pre [p [post [-> [-> [Ht Hp]]]]]].
        exists (x :: pre), p, post. split; [reflexivity|]. split; [reflexivity|].
        split; [exact Ht|]. intros q [->|Hq]; [exact E|exact (Hp q Hq)].
      * intros q [->|Hq]; [exact E|exact (IH q Hq)].
Qed.

Lemma find_policy_spec cfg c o :
  from_config cfg = Some c ->
  match find_policy_for_origin matches c o with
  | Some p => exists g, governed matches cfg o g /\ p = compiled_of cfg g
  | None => ~ admitted matches cfg o
  end.
Proof.
  unfold from_config. destruct (cc_enabled cfg); cbn [negb]; [|discriminate].
  destruct (cc_any cfg) eqn:Ea.
  - intro E. injection E as <-. cbn [find_policy_for_origin]. exists None.
    split; [constructor; exact Ea|reflexivity].
  - intro E.
    assert (Ec : c = ByOrigin (map (fun p => rule_from_config p (global_policy cfg))
                                 (cc_policies cfg))).
    { destruct (map _ _); [discriminate|]. injection E as <-. reflexivity. }
    rewrite Ec. clear E Ec c. cbn [find_policy_for_origin].
    pose proof (find_map_first _ _ (fun p => rule_from_config p (global_policy cfg))
                  (fun r => matches_origin matches r o) (cc_policies cfg)) as F.
    destruct (find _ _) as [r|]; cbn [option_map].
    + destruct F as [pre [p [post [El [-> [Ht Hp]]]]]].
      exists (Some p). split; [|reflexivity].
      apply (Gov_first _ _ _ pre p post Ea El).
      * intros q Hq C. apply rule_covers with (g := global_policy cfg) in C.
        rewrite Hp in C by exact Hq. discriminate.
      * apply rule_covers in Ht. exact Ht.
    + intros [g G]. inversion G as [A|pre p post A El Hp Hc]; subst; [congruence|].
      apply rule_covers with (g := global_policy cfg) in Hc.
      rewrite F in Hc; [discriminate|]. rewrite El. apply in_or_app. right. left. reflexivity.
Qed.

Lemma governed_unique cfg o g g' :
  governed matches cfg o g -> governed matches cfg o g' -> g = g'.
Proof.
  intros G G'. inversion G as [A|pre p post A El Hp Hc]; inversion G' as [A'|pre' p' post' A' El' Hp' Hc'];
    subst; try congruence.
  f_equal. rewrite El in El'. clear - El' Hp Hp' Hc Hc'.
  revert pre' El' Hp'. induction pre as [|x pre IH]; intros [|x' pre'] E Hp'; cbn [app] in E.
  - congruence.
  - injection E as <- E. exfalso. apply (Hp' p); [left; reflexivity|exact Hc].
  - injection E as -> E. exfalso. apply (Hp p'); [left; reflexivity|exact Hc'].
  - injection E as <- E. apply (IH (fun q Hq => Hp q (or_intror Hq)) pre' E
                                  (fun q Hq => Hp' q (or_intror Hq))).
Qed.

(** ** Vary *)
Lemma lines_append_vary n t h : n <> "vary" -> lines n (append_vary t h) = lines n h.
Proof.
  intro Hn.
  assert (I : forall v, lines n (hinsert "vary" v h) = lines n h).
  { intro v. rewrite lines_insert. destruct (String.eqb_spec "vary" n); [congruence|reflexivity]. }
  unfold append_vary.
  destruct (match hget "vary" h with Some v => to_str v | None => None end) as [e|].
  - destruct (existsb _ _); [reflexivity|].
    destruct (if String.eqb e "" then _ else _); [apply I|reflexivity].
  - destruct (from_str t); [apply I|reflexivity].
Qed.

Lemma lines_set_opt n m v h :
  lines n (set_opt m v h) =
  if String.eqb m n then match v with Some x => [x] | None => lines n h end else lines n h.
Proof.
  destruct v as [x|]; cbn [set_opt].
  - apply lines_insert.
  - destruct (String.eqb m n); reflexivity.
Qed.

Lemma to_str_printable v : printable v = true -> to_str v = Some v.
Proof. unfold to_str, printable. intros ->. reflexivity. Qed.

Lemma join_printable l :
  Forall (fun s => printable s = true) l -> printable (join ", " l) = true.
Proof.
  unfold printable. induction l as [|x l IH]; [reflexivity|].
  intro F. inversion F as [|? ? Hx Hl]; subst.
  destruct l as [|y l].
  - exact Hx.
  - change (join ", " (x :: y :: l)) with (x ++ ", " ++ join ", " (y :: l)).
    rewrite !all_chars_app, Hx, (IH Hl). reflexivity.
Qed.

Lemma from_list l :
  printable_list l ->
  header_value_from_list l =
  option_map (join ", ") (match l with Some (x :: l) => Some (x :: l) | _ => None end).
Proof.
  destruct l as [[|x l]|]; [reflexivity| |reflexivity].
  intro P. unfold header_value_from_list, from_str. cbn [option_map].
  apply to_str_printable, join_printable. exact P.
Qed.

Lemma dec_printable n : printable (N_to_dec n) = true.
Proof.
  unfold printable. eapply all_chars_impl; [|apply N_to_dec_digits].
  intros c H. unfold is_digit in H. unfold visible_char. cbv zeta in *.
  apply andb_prop in H. destruct H as [H1 H2].
  apply N.leb_le in H1. apply N.leb_le in H2.
  apply orb_true_iff. left. apply andb_true_iff. split; apply N.leb_le; lia.
Qed.

(** ** Members of Vary *)
Definition good_token (t : string) : Prop :=
  printable t = true /\ lower t <> "" /\ t <> "" /\
  split_on "," t = [t] /\ lower (trim t) = lower t /\
  split_on "," (" " ++ t) = [" " ++ t] /\ lower (trim (" " ++ t)) = lower t.

Lemma good_origin : good_token "Origin".
Proof. repeat split; try reflexivity; intro H; discriminate H. Qed.
Lemma good_acrh : good_token "Access-Control-Request-Headers".
Proof. repeat split; try reflexivity; intro H; discriminate H. Qed.

Definition members_of (v : string) : list string := map (fun t => lower (trim t)) (split_on "," v).

Lemma vary_members_lines h :
  vary_members h =
  filter (fun t => negb (String.eqb t "")) (flat_map members_of (lines "vary" h)).
Proof. reflexivity. Qed.

Lemma in_vary t h :
  In t (vary_members h) <-> t <> "" /\ exists v, In v (lines "vary" h) /\ In t (members_of v).
Proof.
  rewrite vary_members_lines, filter_In, in_flat_map.
  destruct (String.eqb_spec t "") as [E|E]; cbn [negb].
  - split; [intros [_ X]; discriminate X|intros [X _]; contradiction].
  - split; [intros [X _]; split; assumption|intros [_ X]; split; [exact X|reflexivity]].
Qed.

Lemma lines_vary_insert v h : lines "vary" (hinsert "vary" v h) = [v].
Proof. rewrite lines_insert. reflexivity. Qed.

Lemma split_on_app_any c a b :
  split_on c (a ++ String c b) = (split_on c a ++ split_on c b)%list.
Proof.
  induction a as [|d a IH]; cbn [append split_on].
  - rewrite Ascii.eqb_refl. reflexivity.
  - destruct (Ascii.eqb c d); [rewrite IH; reflexivity|]. rewrite IH.
    destruct (split_on c a) as [|p ps] eqn:E; [exfalso; exact (split_on_nonempty c a E)|].
    reflexivity.
Qed.

Lemma append_vary_members tok h :
  good_token tok -> plain_vary h ->
  plain_vary (append_vary tok h) /\
  forall t, In t (vary_members (append_vary tok h)) <-> In t (vary_members h) \/ t = lower tok.
Proof.
  intros [Gp [Gl [Gn [Gs [Gt [Gs' Gt']]]]]] P.
  destruct P as [P|[v [P Pv]]].
  - assert (E : append_vary tok h = hinsert "vary" tok h).
    { unfold append_vary. rewrite hget_lines, P. cbn [hd_error].
      unfold from_str. rewrite (to_str_printable _ Gp). reflexivity. }
    rewrite E. split.
    + right. exists tok. split; [apply lines_vary_insert|exact Gp].
    + intro t. rewrite !in_vary, lines_vary_insert, P. split.
      * intros [Ht [w [[<-|[]] Hw]]]. right. unfold members_of in Hw. rewrite Gs in Hw.
        destruct Hw as [<-|[]]. exact Gt.
      * intros [[_ [w [[] _]]]| ->]. split; [exact Gl|]. exists tok.
        split; [left; reflexivity|]. unfold members_of. rewrite Gs. left. exact Gt.
  - unfold append_vary. rewrite hget_lines, P. cbn [hd_error].
    rewrite (to_str_printable _ Pv).
    destruct (existsb (fun t => eq_ignore_case (trim t) tok) (split_on "," v)) eqn:Ex.
    + split; [right; exists v; split; [exact P|exact Pv]|].
      intro t. split; [intro H; left; exact H|]. intros [H| ->]; [exact H|].
      apply in_vary. split; [exact Gl|]. exists v. rewrite P. split; [left; reflexivity|].
      apply existsb_exists in Ex. destruct Ex as [x [Hx Ex]].
      apply String.eqb_eq in Ex. apply in_map_iff. exists x. split; [exact Ex|exact Hx].
    + destruct (String.eqb_spec v "") as [-> |Hne].
      * unfold from_str. rewrite (to_str_printable _ Gp). split.
        -- right. exists tok. split; [apply lines_vary_insert|exact Gp].
        -- intro t. rewrite !in_vary, lines_vary_insert, P. split.
           ++ intros [Ht [w [[<-|[]] Hw]]]. right. unfold members_of in Hw. rewrite Gs in Hw.
              destruct Hw as [<-|[]]. exact Gt.
           ++ intros [[Ht [w [[<-|[]] Hw]]]| ->].
              ** exfalso. apply Ht. destruct Hw as [<-|[]]. reflexivity.
              ** split; [exact Gl|]. exists tok. split; [left; reflexivity|].
                 unfold members_of. rewrite Gs. left. exact Gt.
      * assert (Pj : printable (v ++ ", " ++ tok) = true).
        { unfold printable in *. rewrite !all_chars_app, Pv, Gp. reflexivity. }
        unfold from_str. rewrite (to_str_printable _ Pj). split.
        -- right. eexists. split; [apply lines_vary_insert|exact Pj].
        -- assert (Em : members_of (v ++ ", " ++ tok) = (members_of v ++ [lower tok])%list).
           { unfold members_of.
             change (v ++ ", " ++ tok) with (v ++ String "," (" " ++ tok)).
             rewrite split_on_app_any, map_app, Gs'. cbn [map]. rewrite Gt'. reflexivity. }
           intro t. rewrite !in_vary, lines_vary_insert, P. split.
           ++ intros [Ht [w [[<-|[]] Hw]]]. rewrite Em in Hw. apply in_app_or in Hw.
              destruct Hw as [Hw|[<-|[]]]; [left|right; reflexivity].
              split; [exact Ht|]. exists v. split; [left; reflexivity|exact Hw].
           ++ intros H.
              assert (H' : t <> "" /\ In t (members_of v ++ [lower tok])%list).
              { destruct H as [[Ht [w [[<-|[]] Hw]]]| ->].
                - split; [exact Ht|]. apply in_or_app. left. exact Hw.
                - split; [exact Gl|]. apply in_or_app. right. left. reflexivity. }
              destruct H' as [Ht Hi]. split; [exact Ht|]. eexists.
              split; [left; reflexivity|]. rewrite Em. exact Hi.
Qed.

(** ** The whole of [apply_to] *)
Local Ltac eqbs :=
  repeat match goal with
  | |- context [String.eqb ?a ?b] =>
      let r := eval vm_compute in (String.eqb a b) in
      match r with
      | true => change (String.eqb a b) with true
      | false => change (String.eqb a b) with false
      end
  end; cbv iota.

Lemma lines_insert_ne n m v h : m <> n -> lines n (hinsert m v h) = lines n h.
Proof. intro H. rewrite lines_insert. destruct (String.eqb_spec m n); [contradiction|reflexivity]. Qed.
Lemma lines_insert_eq n v h : lines n (hinsert n v h) = [v].
Proof. rewrite lines_insert, String.eqb_refl. reflexivity. Qed.

Lemma lines_set_opt_ne n m v h : m <> n -> lines n (set_opt m v h) = lines n h.
Proof. intro H. rewrite lines_set_opt. destruct (String.eqb_spec m n); [contradiction|reflexivity]. Qed.

(** [apply_to] without the preflight headers. *)
Definition base (p : compiled) (req : request) (o : string) (h : headers) : headers :=
  apply_to p {| rq_options := false; rq_headers := rq_headers req |} o h.

Lemma apply_base p req o h :
  apply_to p req o h =
  if rq_options req
  then fold_left (fun h kv => hinsert (fst kv) (snd kv) h) (cp_preflight p) (base p req o h)
  else base p req o h.
Proof. unfold base, apply_to. cbv zeta. cbn [rq_options rq_headers]. destruct (rq_options req); reflexivity. Qed.

Definition base_lines (p : compiled) (req : request) (o : string) (h : headers) (n : string)
  : list string :=
  if String.eqb n "access-control-allow-origin" then [o]
  else if String.eqb n "access-control-allow-methods" then
    match cp_methods p with
    | Some v => [v]
    | None => match lines "access-control-request-method" (rq_headers req) with
              | [] => lines n h | v :: _ => [v] end
    end
  else if String.eqb n "access-control-allow-headers" then
    match cp_allow_headers p with
    | Some v => [v]
    | None => match lines "access-control-request-headers" (rq_headers req) with
              | [] => lines n h | v :: _ => [v] end
    end
  else if String.eqb n "access-control-allow-credentials" then
    match cp_credentials p with Some v => [v] | None => lines n h end
  else if String.eqb n "access-control-expose-headers" then
    match cp_expose p with Some v => [v] | None => lines n h end
  else if String.eqb n "access-control-max-age" then
    match cp_max_age p with Some v => [v] | None => lines n h end
  else lines n h.

Definition put (n : string) (configured : option string) (asked : list string) (h : headers)
  : headers :=
  match configured with
  | Some v => hinsert n v h
  | None => match asked with [] => h | v :: _ => hinsert n v h end
  end.
Definition put_lines (configured : option string) (asked before : list string) : list string :=
  match configured with
  | Some v => [v]
  | None => match asked with [] => before | v :: _ => [v] end
  end.

Lemma lines_put n m c a h :
  lines n (put m c a h) = if String.eqb m n then put_lines c a (lines n h) else lines n h.
Proof.
  unfold put, put_lines. destruct c as [v|]; [apply lines_insert|].
  destruct a as [|v a]; [|apply lines_insert].
  destruct (String.eqb m n); reflexivity.
Qed.

(** [apply_to] as a chain of named steps. *)
Definition origin_step (o : string) (h : headers) : headers :=
  if String.eqb o "null" then h else append_vary "Origin" h.
Definition headers_step (c : option string) (a : list string) (h : headers) : headers :=
  match c, a with
  | None, _ :: _ => append_vary "Access-Control-Request-Headers" h
  | _, _ => h
  end.

Lemma base_steps p req o h :
  base p req o h =
  set_opt "access-control-max-age" (cp_max_age p)
   (set_opt "access-control-expose-headers" (cp_expose p)
    (set_opt "access-control-allow-credentials" (cp_credentials p)
     (headers_step (cp_allow_headers p)
        (lines "access-control-request-headers" (rq_headers req))
      (put "access-control-allow-headers" (cp_allow_headers p)
         (lines "access-control-request-headers" (rq_headers req))
       (put "access-control-allow-methods" (cp_methods p)
          (lines "access-control-request-method" (rq_headers req))
        (origin_step o (hinsert "access-control-allow-origin" o h))))))).
Proof.
  unfold base, apply_to. cbv zeta. cbn [rq_options rq_headers].
  rewrite !hget_lines. f_equal. f_equal. f_equal.
  fold (origin_step o (hinsert "access-control-allow-origin" o h)).
  generalize (origin_step o (hinsert "access-control-allow-origin" o h)). intro h2.
  generalize (lines "access-control-request-headers" (rq_headers req)). intro a.
  generalize (lines "access-control-request-method" (rq_headers req)). intro b.
  unfold headers_step, put.
  destruct (cp_allow_headers p) as [v|], (cp_methods p) as [w|], a as [|x a], b as [|y b];
    reflexivity.
Qed.

Lemma lines_origin_step n o h : n <> "vary" -> lines n (origin_step o h) = lines n h.
Proof.
  intro Hv. unfold origin_step. destruct (String.eqb o "null"); [reflexivity|].
  apply lines_append_vary. exact Hv.
Qed.
Lemma lines_headers_step n c a h : n <> "vary" -> lines n (headers_step c a h) = lines n h.
Proof.
  intro Hv. unfold headers_step. destruct c; [reflexivity|]. destruct a; [reflexivity|].
  apply lines_append_vary. exact Hv.
Qed.

Lemma lines_base p req o h n :
  n <> "vary" -> lines n (base p req o h) = base_lines p req o h n.
Proof.
  intro Hv. rewrite base_steps. rewrite !lines_set_opt.
  rewrite (lines_headers_step _ _ _ _ Hv), !lines_put, (lines_origin_step _ _ _ Hv), lines_insert.
  unfold base_lines, put_lines.
  rewrite !(String.eqb_sym n).
  destruct (String.eqb_spec "access-control-allow-origin" n) as [<-|N1]; [eqbs; reflexivity|].
  destruct (String.eqb_spec "access-control-allow-methods" n) as [<-|N2]; [eqbs; reflexivity|].
  destruct (String.eqb_spec "access-control-allow-headers" n) as [<-|N3]; [eqbs; reflexivity|].
  destruct (String.eqb_spec "access-control-allow-credentials" n) as [<-|N4]; [eqbs; reflexivity|].
  destruct (String.eqb_spec "access-control-expose-headers" n) as [<-|N5]; [eqbs; reflexivity|].
  reflexivity.
Qed.

(** Compiled settings are the documented effective ones. *)
Lemma governed_in cfg o p : governed matches cfg o (Some p) -> In p (cc_policies cfg).
Proof.
  intro G. inversion G as [|pre q post A El Hp Hc]; subst. rewrite El.
  apply in_or_app. right. left. reflexivity.
Qed.

Lemma eff_or_else f gl p :
  printable_list (f p) -> printable_list gl ->
  or_else (header_value_from_list (f p)) (header_value_from_list gl) =
  option_map (join ", ") (eff_list f gl (Some p)).
Proof.
  intros P1 P2. rewrite (from_list _ P1), (from_list _ P2). unfold eff_list.
  destruct (f p) as [[|x l]|]; reflexivity.
Qed.

Lemma compiled_eff cfg g o :
  well_written cfg -> governed matches cfg o g ->
  cp_methods (compiled_of cfg g) = option_map (join ", ") (eff_list pc_methods (cc_methods cfg) g) /\
  cp_allow_headers (compiled_of cfg g) =
    option_map (join ", ") (eff_list pc_allow_headers (cc_allow_headers cfg) g) /\
  cp_expose (compiled_of cfg g) = option_map (join ", ") (eff_list pc_expose (cc_expose cfg) g) /\
  cp_max_age (compiled_of cfg g) = option_map N_to_dec (eff_max_age cfg g) /\
  (no_credential_override cfg g ->
   cp_credentials (compiled_of cfg g) = if eff_credentials cfg g then Some "true" else None).
Proof.
  intros [Wm [Wa [We Wp]]] G.
  assert (D : forall n, from_str (N_to_dec n) = Some (N_to_dec n)).
  { intro n. unfold from_str. apply to_str_printable, dec_printable. }
  destruct g as [p|].
  - apply governed_in in G. rewrite Forall_forall in Wp. destruct (Wp p G) as [Qm [Qa Qe]].
    unfold compiled_of, policy_from_config, global_policy.
    cbn [cp_methods cp_allow_headers cp_expose cp_max_age cp_credentials].
    split; [apply eff_or_else; assumption|].
    split; [apply eff_or_else; assumption|].
    split; [apply eff_or_else; assumption|]. split.
    + unfold eff_max_age. destruct (pc_max_age p); [apply D|].
      destruct (cc_max_age cfg); [apply D|reflexivity].
    + unfold eff_credentials, no_credential_override. intro C.
      destruct (pc_credentials p) as [[|]|]; [reflexivity| |reflexivity].
      destruct C as [C|C]; [congruence|]. rewrite C. reflexivity.
  - unfold compiled_of, global_policy.
    cbn [cp_methods cp_allow_headers cp_expose cp_max_age cp_credentials].
    unfold eff_list, eff_max_age, eff_credentials.
    rewrite !from_list by assumption.
    split; [reflexivity|]. split; [reflexivity|]. split; [reflexivity|]. split.
    + destruct (cc_max_age cfg); [apply D|reflexivity].
    + reflexivity.
Qed.

Lemma base_expected cfg g req o h n :
  well_written cfg -> governed matches cfg o g -> no_credential_override cfg g ->
  n <> "vary" ->
  lines n (base (compiled_of cfg g) req o h) = expected cfg g req o h n.
Proof.
  intros W G C Hv. rewrite lines_base by exact Hv.
  destruct (compiled_eff cfg g o W G) as [E1 [E2 [E3 [E4 E5]]]]. specialize (E5 C).
  unfold base_lines, expected, or_reflect. rewrite E1, E2, E3, E4, E5.
  destruct (eff_list pc_methods _ _), (eff_list pc_allow_headers _ _),
    (eff_list pc_expose _ _), (eff_max_age _ _), (eff_credentials _ _); reflexivity.
Qed.

(** The seen origin of a printable origin is the origin. *)
Lemma set_headers_governed cfg c req o g h :
  from_config cfg = Some c -> hget "origin" (rq_headers req) = Some o -> printable o = true ->
  governed matches cfg o g ->
  set_headers matches c req h = apply_to (compiled_of cfg g) req o h.
Proof.
  intros F Ho Po G. unfold set_headers. rewrite Ho, (to_str_printable _ Po).
  pose proof (find_policy_spec cfg c o F) as S0.
  destruct (find_policy_for_origin matches c o) as [p|].
  - destruct S0 as [g' [G' ->]]. rewrite (governed_unique _ _ _ _ G G'). reflexivity.
  - exfalso. apply S0. exists g. exact G.
Qed.

Lemma set_headers_rejected cfg c req o h :
  from_config cfg = Some c -> hget "origin" (rq_headers req) = Some o -> printable o = true ->
  ~ admitted matches cfg o ->
  set_headers matches c req h = hinsert "access-control-allow-origin" "null" h.
Proof.
  intros F Ho Po G. unfold set_headers. rewrite Ho, (to_str_printable _ Po).
  pose proof (find_policy_spec cfg c o F) as S0.
  destruct (find_policy_for_origin matches c o) as [p|]; [|reflexivity].
  exfalso. apply G. destruct S0 as [g' [G' _]]. exists g'. exact G'.
Qed.

Lemma governed_enabled cfg o g :
  governed matches cfg o g -> cc_enabled cfg = true -> exists c, from_config cfg = Some c.
Proof.
  intros G E. unfold from_config. rewrite E. cbn [negb].
  destruct (cc_any cfg) eqn:A; [eexists; reflexivity|].
  inversion G as [B|pre p post B El Hp Hc]; [congruence|]. rewrite El, map_app. cbn [map].
  destruct (map _ pre); cbn [app]; eexists; reflexivity.
Qed.

(** ** Preflight headers *)
Lemma last_line_app n a b :
  last_line n (a ++ b)%list = match last_line n b with Some v => Some v | None => last_line n a end.
Proof.
  unfold last_line. rewrite lines_app, rev_app_distr.
  destruct (rev (lines n b)); reflexivity.
Qed.

Lemma fold_hinsert_lines n l h :
  lines n (fold_left (fun h kv => hinsert (fst kv) (snd kv) h) l h) =
  match last_line n l with Some v => [v] | None => lines n h end.
Proof.
  revert h. induction l as [|[k v] l IH]; intro h; cbn [fold_left fst snd]; [reflexivity|].
  rewrite IH. change ((k, v) :: l) with ([(k, v)] ++ l)%list. rewrite last_line_app.
  destruct (last_line n l); [reflexivity|]. rewrite lines_insert. unfold last_line, lines.
  cbn [flat_map fst snd app]. destruct (String.eqb k n); reflexivity.
Qed.

Lemma fold_happend l h :
  fold_left (fun h kv => happend (fst kv) (snd kv) h) l h = (h ++ l)%list.
Proof.
  revert h. induction l as [|[k v] l IH]; intro h; cbn [fold_left fst snd].
  - symmetry. apply app_nil_r.
  - rewrite IH. unfold happend. rewrite <- app_assoc. reflexivity.
Qed.

Lemma merge_preflight_app g o : merge_preflight g o = (g ++ o)%list.
Proof.
  unfold merge_preflight. destruct o; [symmetry; apply app_nil_r|]. apply fold_happend.
Qed.

Lemma compiled_preflight cfg g n :
  last_line n (cp_preflight (compiled_of cfg g)) = eff_preflight cfg g n.
Proof.
  unfold eff_preflight. destruct g as [p|]; [|reflexivity].
  unfold compiled_of, policy_from_config. cbn [cp_preflight].
  rewrite merge_preflight_app, last_line_app. reflexivity.
Qed.

(** ** Vary of [base] *)
Lemma plain_vary_ext h h' : lines "vary" h' = lines "vary" h -> plain_vary h -> plain_vary h'.
Proof. unfold plain_vary. intros ->. auto. Qed.
Lemma vary_members_ext h h' : lines "vary" h' = lines "vary" h -> vary_members h' = vary_members h.
Proof. unfold vary_members. intros ->. reflexivity. Qed.

Definition reflects (p : compiled) (req : request) : Prop :=
  cp_allow_headers p = None /\ lines "access-control-request-headers" (rq_headers req) <> [].

Lemma base_vary p req o h :
  plain_vary h ->
  forall t, In t (vary_members (base p req o h)) <->
    In t (vary_members h) \/ (o <> "null" /\ t = "origin") \/
    (reflects p req /\ t = "access-control-request-headers").
Proof.
  intros P t. rewrite base_steps.
  assert (SO : forall m v k, m <> "vary" -> vary_members (set_opt m v k) = vary_members k).
  { intros m v k Hm. apply vary_members_ext, lines_set_opt_ne. exact Hm. }
  rewrite !SO by discriminate. clear SO.
  set (h1 := hinsert "access-control-allow-origin" o h).
  assert (E1 : lines "vary" h1 = lines "vary" h) by (apply lines_insert_ne; discriminate).
  clearbody h1.
  assert (P1 : plain_vary h1) by (apply (plain_vary_ext h); assumption).
  assert (H2 : plain_vary (origin_step o h1) /\ forall t, In t (vary_members (origin_step o h1)) <->
                In t (vary_members h) \/ (o <> "null" /\ t = "origin")).
  { unfold origin_step. rewrite <- (vary_members_ext h h1 E1).
    destruct (String.eqb_spec o "null") as [En|En].
    - split; [exact P1|]. intro u. split; [auto|]. intros [X|[X _]]; [exact X|contradiction].
    - destruct (append_vary_members "Origin" h1 good_origin P1) as [A B]. split; [exact A|].
      intro u. rewrite B. change (lower "Origin") with "origin". tauto. }
  revert H2. generalize (origin_step o h1). intros h2 [P2 M2].
  set (a := lines "access-control-request-headers" (rq_headers req)).
  set (b := lines "access-control-request-method" (rq_headers req)).
  set (h4 := put "access-control-allow-headers" (cp_allow_headers p) a
               (put "access-control-allow-methods" (cp_methods p) b h2)).
  assert (E4 : lines "vary" h4 = lines "vary" h2).
  { unfold h4. rewrite !lines_put. eqbs. reflexivity. }
  clearbody h4.
  assert (P4 : plain_vary h4) by (apply (plain_vary_ext h2); assumption).
  pose proof (vary_members_ext h2 h4 E4) as M4.
  unfold headers_step, reflects. fold a. clearbody a b.
  destruct (cp_allow_headers p) as [v|].
  - rewrite M4, M2. split; [tauto|]. intros [X|[X|[[X _] _]]]; [tauto|tauto|discriminate].
  - destruct a as [|v vs].
    + rewrite M4, M2. split; [tauto|]. intros [X|[X|[[_ X] _]]]; [tauto|tauto|contradiction].
    + destruct (append_vary_members "Access-Control-Request-Headers" h4 good_acrh P4) as [_ B].
      rewrite B, M4, M2.
      change (lower "Access-Control-Request-Headers") with "access-control-request-headers".
      split; [|intros [X|[X|[_ X]]]; tauto].
      intros [X|X]; [tauto|]. right. right. split; [split; [reflexivity|discriminate]|exact X].
Qed.

(** ** Statements about [respond] *)
Lemma respond_admitted cfg req o g st h :
  cc_enabled cfg = true -> well_written cfg -> rq_options req = false ->
  hget "origin" (rq_headers req) = Some o -> printable o = true ->
  governed matches cfg o g -> no_credential_override cfg g ->
  fst (respond matches cfg req (st, h)) = st /\
  forall n, n <> "vary" -> lines n (snd (respond matches cfg req (st, h))) = expected cfg g req o h n.
Proof.
  intros E W Q Ho Po G C. destruct (governed_enabled cfg o g G E) as [c F].
  unfold respond, get_early_response. rewrite F, Q. cbn [fst snd]. split; [reflexivity|].
  intros n Hn. rewrite (set_headers_governed cfg c req o g h F Ho Po G), apply_base, Q.
  apply (base_expected cfg g req o h n W G C Hn).
Qed.

Lemma respond_vary cfg req o g st h :
  cc_enabled cfg = true -> well_written cfg -> rq_options req = false ->
  hget "origin" (rq_headers req) = Some o -> printable o = true ->
  governed matches cfg o g -> plain_vary h ->
  forall t, In t (vary_members (snd (respond matches cfg req (st, h)))) <->
    In t (vary_members h) \/ (o <> "null" /\ t = "origin") \/
    (asks_reflected cfg g req /\ t = "access-control-request-headers").
Proof.
  intros E W Q Ho Po G P t. destruct (governed_enabled cfg o g G E) as [c F].
  unfold respond, get_early_response. rewrite F, Q. cbn [fst snd].
  rewrite (set_headers_governed cfg c req o g h F Ho Po G), apply_base, Q.
  rewrite (base_vary _ _ _ _ P). unfold reflects, asks_reflected.
  destruct (compiled_eff cfg g o W G) as [_ [E2 _]]. rewrite E2.
  destruct (eff_list pc_allow_headers (cc_allow_headers cfg) g); cbn [option_map].
  - split; (intros [X|[X|[[X _] _]]]; [tauto|tauto|discriminate X]).
  - split; (intros [X|[X|[[_ X] Y]]]; [tauto|tauto|]); right; right;
      (split; [split; [reflexivity|exact X]|exact Y]).
Qed.

Lemma respond_rejected cfg c req o st h :
  from_config cfg = Some c -> rq_options req = false ->
  hget "origin" (rq_headers req) = Some o -> printable o = true -> ~ admitted matches cfg o ->
  respond matches cfg req (st, h) = (st, hinsert "access-control-allow-origin" "null" h).
Proof.
  intros F Q Ho Po G. unfold respond, get_early_response. rewrite F, Q.
  rewrite (set_headers_rejected cfg c req o h F Ho Po G). reflexivity.
Qed.

Lemma respond_preflight cfg req o g st h :
  cc_enabled cfg = true -> well_written cfg -> rq_options req = true ->
  hget "origin" (rq_headers req) = Some o -> printable o = true ->
  governed matches cfg o g -> no_credential_override cfg g ->
  fst (respond matches cfg req (st, h)) = 204%N /\
  forall n, n <> "vary" ->
    lines n (snd (respond matches cfg req (st, h))) =
    match eff_preflight cfg g n with
    | Some v => [v]
    | None => expected cfg g req o [("content-length", "0")] n
    end.
Proof.
  intros E W Q Ho Po G C. destruct (governed_enabled cfg o g G E) as [c F].
  unfold respond, get_early_response. rewrite F, Q. cbn [fst snd]. split; [reflexivity|].
  intros n Hn. rewrite (set_headers_governed cfg c req o g _ F Ho Po G), apply_base, Q.
  rewrite fold_hinsert_lines, compiled_preflight.
  destruct (eff_preflight cfg g n); [reflexivity|].
  apply (base_expected cfg g req o _ n W G C Hn).
Qed.

Lemma respond_preflight_rejected cfg c req o st h :
  from_config cfg = Some c -> rq_options req = true ->
  hget "origin" (rq_headers req) = Some o -> printable o = true -> ~ admitted matches cfg o ->
  respond matches cfg req (st, h) =
  (204%N, [("content-length", "0"); ("access-control-allow-origin", "null")]).
Proof.
  intros F Q Ho Po G. unfold respond, get_early_response. rewrite F, Q.
  rewrite (set_headers_rejected cfg c req o _ F Ho Po G). reflexivity.
Qed.

Lemma respond_no_origin cfg req st h :
  hget "origin" (rq_headers req) = None -> rq_options req = false ->
  respond matches cfg req (st, h) = (st, h).
Proof.
  intros Ho Q. unfold respond, get_early_response, set_headers. rewrite Ho, Q.
  destruct (from_config cfg); reflexivity.
Qed.

Lemma respond_off cfg req r :
  cc_enabled cfg = false \/ (cc_any cfg = false /\ cc_policies cfg = []) ->
  respond matches cfg req r = r.
Proof.
  intros H. unfold respond, from_config. destruct (cc_enabled cfg); [|reflexivity].
  destruct H as [H|[Ha Hp]]; [discriminate|]. rewrite Ha, Hp. reflexivity.
Qed.

Lemma from_config_on cfg :
  cc_enabled cfg = true -> (cc_any cfg = true \/ cc_policies cfg <> []) ->
  exists c, from_config cfg = Some c.
Proof.
  intros E H. unfold from_config. rewrite E. cbn [negb].
  destruct (cc_any cfg); [eexists; reflexivity|]. destruct H as [H|H]; [discriminate|].
  destruct (cc_policies cfg); [congruence|]. cbn [map]. eexists. reflexivity.
Qed.

(** The origin is echoed exactly when it is admitted. *)
Lemma respond_echo cfg req o st h :
  cc_enabled cfg = true -> (cc_any cfg = true \/ cc_policies cfg <> []) ->
  rq_options req = false -> hget "origin" (rq_headers req) = Some o -> printable o = true ->
  o <> "null" ->
  (lines "access-control-allow-origin" (snd (respond matches cfg req (st, h))) = [o] <->
   admitted matches cfg o) /\
  (~ admitted matches cfg o ->
   lines "access-control-allow-origin" (snd (respond matches cfg req (st, h))) = ["null"]).
Proof.
  intros E On Q Ho Po Hn. destruct (from_config_on cfg E On) as [c F].
  assert (R : ~ admitted matches cfg o ->
     lines "access-control-allow-origin" (snd (respond matches cfg req (st, h))) = ["null"]).
  { intro A. rewrite (respond_rejected cfg c req o st h F Q Ho Po A). cbn [snd].
    apply lines_insert_eq. }
  split; [|exact R].
  pose proof (find_policy_spec cfg c o F) as S0.
  destruct (find_policy_for_origin matches c o) as [p|].
  - destruct S0 as [g [G _]]. split; [intros _; exists g; exact G|]. intros _.
    unfold respond, get_early_response. rewrite F, Q. cbn [snd].
    rewrite (set_headers_governed cfg c req o g h F Ho Po G), apply_base, Q.
    rewrite lines_base by discriminate. reflexivity.
  - split; [|intro A; contradiction]. intro L. rewrite (R S0) in L. congruence.
Qed.
End P.
