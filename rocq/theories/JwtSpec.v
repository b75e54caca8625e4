(** What authentication by JSON web tokens promises, stated without the functions of [JwtModel]. *)
From Coq Require Import String Ascii List NArith Bool.
From Verif Require Import StrUtil JwtModel.
Import ListNotations.
Local Open Scope string_scope.
Local Open Scope list_scope.

(** * Where a token is looked for *)
Definition free (c : ascii) (s : string) : Prop := forall a b, s <> (a ++ String c b)%string.
Definition blank (s : string) : Prop := forall a c b, s = (a ++ String c b)%string -> is_ws c = true.
(** [t] is [s] without the white space around it *)
Definition trimmed (s t : string) : Prop :=
  exists a b, s = (a ++ t ++ b)%string /\ blank a /\ blank b /\
    (forall c r, t = String c r -> is_ws c = false) /\ (forall c r, t = (r ++ String c "")%string -> is_ws c = false).
(** [t] is [s] without the quotes around it *)
Definition quoted (s t : string) : Prop := s = (String "034" (t ++ String "034" ""))%string.
Definition unquoted (s t : string) : Prop := quoted s t \/ (t = s /\ forall u, ~ quoted s u).
(** [l] are the pieces of [s] between the occurrences of [c] *)
Definition pieces (c : ascii) (s : string) (l : list string) : Prop :=
  l <> [] /\ s = String.concat (String c "") l /\ Forall (free c) l.
(** Visible ASCII *)
Definition text (s : string) : Prop :=
  forall a c b, s = (a ++ String c b)%string -> (32 <= N_of_ascii c <= 126)%N \/ N_of_ascii c = 9%N.

(** The first header of that name, whatever the case *)
Definition first_header (n : string) (h : headers) (v : string) : Prop :=
  exists a k b, h = a ++ (k, v) :: b /\ lower k = lower n /\ Forall (fun x => lower (fst x) <> lower n) a.
Definition no_header (n : string) (h : headers) : Prop := Forall (fun x => lower (fst x) <> lower n) h.
(** A piece of a cookie header that gives a cookie *)
Definition gives (piece name value : string) : Prop :=
  exists a b v, piece = (a ++ String "=" b)%string /\ free "=" a /\ trimmed a name /\ name <> "" /\
    trimmed b v /\ unquoted v value.

(** A location holds a token, holds something that is not a token, or holds nothing *)
Inductive holds (h : headers) : location -> option string -> string -> Prop :=
| holds_bare n v : first_header n h v -> text v -> holds h (InHeader n None) None v
| holds_prefix n p v r t : first_header n h v -> text v -> v = (p ++ r)%string -> trimmed r t -> holds h (InHeader n (Some p)) (Some p) t
| holds_cookie n v a i b t : first_header "cookie" h v -> text v -> pieces ";" v (a ++ i :: b) -> gives i n t ->
    Forall (fun j => forall u, ~ gives j n u) a -> holds h (InCookie n) None t.
Inductive spoils (h : headers) : location -> lookup_error -> Prop :=
| spoils_text n p v : first_header n h v -> ~ text v -> spoils h (InHeader n p) NotText
| spoils_prefix n p v : first_header n h v -> text v -> (forall r, v <> (p ++ r)%string) -> spoils h (InHeader n (Some p)) MismatchedPrefix.
Inductive silent (h : headers) : location -> Prop :=
| silent_header n p : no_header n h -> silent h (InHeader n p)
| silent_no_cookie n : no_header "cookie" h -> silent h (InCookie n)
| silent_text n v : first_header "cookie" h v -> ~ text v -> silent h (InCookie n)
| silent_cookie n v l : first_header "cookie" h v -> text v -> pieces ";" v l ->
    Forall (fun j => forall u, ~ gives j n u) l -> silent h (InCookie n).
(** The first location that is not silent decides *)
Definition found (ls : list location) (h : headers) (r : result (option string * string) lookup_error) : Prop :=
  (exists a l b p t, ls = a ++ l :: b /\ Forall (silent h) a /\ holds h l p t /\ r = Ok (p, t)) \/
  (exists a l b e, ls = a ++ l :: b /\ Forall (silent h) a /\ spoils h l e /\ r = Err e) \/
  (Forall (silent h) ls /\ r = Err LookupNotFound).

(** * What makes a token valid *)
Section Valid.
  Variable cfg : config.
  Variable read_header : string -> option header.
  Variable usable : string -> bool.
  Variable fits : string -> alg -> bool.
  Variable signed : string -> alg -> string -> bool.
  Variable read_claims : string -> option claims.

  Definition among {A} (l : option (list A)) (x : A) : Prop := forall m, l = Some m -> In x m.
  Definition issuer_ok (c : claims) : Prop :=
    g_issuers cfg <> None -> exists i, c_iss c = Some i /\ among (g_issuers cfg) i.
  (** All the audiences of the token are ours *)
  Definition audience_ok (c : claims) : Prop :=
    g_audiences cfg <> None ->
    (exists a, c_aud c = Some (Single a) /\ among (g_audiences cfg) a) \/
    (exists l, c_aud c = Some (Multiple l) /\ l <> [] /\ Forall (among (g_audiences cfg)) l).
  (** Signed, with an algorithm the key and the configuration allow *)
  Definition verifies (k : jwk) (token : string) : Prop :=
    exists h, read_header token = Some h /\ usable (k_material k) = true /\ fits (k_material k) (h_alg h) = true /\
      signed (k_material k) (h_alg h) token = true /\
      (k_alg k = None \/ k_alg k = Some (Signs (h_alg h))) /\ among (g_algorithms cfg) (h_alg h).
  (** The claims of the token, for us, and not older than a minute at [now] *)
  Definition acceptable (now : N) (token : string) (c : claims) : Prop :=
    read_claims token = Some c /\ (exists e, c_exp c = Some e /\ (now <= e + 60)%N) /\ issuer_ok c /\ audience_ok c.

  (** The sets of keys the router can read after some events *)
  Definition in_force (l : list event) (set : jwk_set) : Prop :=
    exists a srcs b s, l = a ++ Keys srcs :: b /\ (forall m, ~ In (Keys m) b) /\ In s srcs /\
      s_set s = Some set /\ s_locked s = false.
  (** The last state of the sources, and the sets that can be read in it, in order *)
  Definition latest (l : list event) (srcs : list source) : Prop :=
    ((forall m, ~ In (Keys m) l) /\ srcs = []) \/ exists a b, l = a ++ Keys srcs :: b /\ forall m, ~ In (Keys m) b.
  Inductive readable : list source -> list jwk_set -> Prop :=
  | readable_nil : readable [] []
  | readable_set set l r : readable l r -> readable (mksource (Some set) false :: l) (set :: r)
  | readable_none b l r : readable l r -> readable (mksource None b :: l) r
  | readable_locked o l r : readable l r -> readable (mksource o true :: l) r.
  (** A token has been checked at a request *)
  Definition checked (before : list event) (ms : N) (token : string) (c : claims) : Prop :=
    exists set k, in_force before set /\ In k set /\ verifies k token /\ acceptable (ms / 1000) token c.

  (** A request with a token some key in force has signed, and which is refused all the same *)
  Definition refused_though_valid (evs : list event) (ms : N) (h : headers) : Prop :=
    exists q t set k c, found (g_locations cfg) h (Ok (q, t)) /\ in_force evs set /\ In k set /\ verifies k t /\
      acceptable (ms / 1000) t c /\ forall x, answer cfg read_header usable fits signed read_claims evs ms h <> Ok (Some x).

  (** The set the router picks among those loaded, in the order of the providers *)
  Definition with_kid (kid : string) (set : jwk_set) : Prop := exists k, In k set /\ k_id k = Some kid.
  Definition with_alg (a : alg) (set : jwk_set) : Prop := exists k, In k set /\ k_alg k = Some (Signs a).
  Definition only_signing (set : jwk_set) : Prop := forall k n, In k set -> k_alg k <> Some (Other n).
  Inductive picked (sets : list jwk_set) (h : header) (set : jwk_set) : Prop :=
  | picked_kid a b kid : h_kid h = Some kid -> sets = a ++ set :: b -> with_kid kid set ->
      Forall (fun s => ~ with_kid kid s) a -> picked sets h set
  | picked_alg a b : (forall kid, h_kid h = Some kid -> Forall (fun s => ~ with_kid kid s) sets) ->
      sets = a ++ set :: b -> with_alg (h_alg h) set -> Forall (fun s => ~ with_alg (h_alg h) s) a ->
      Forall only_signing a ->
      (exists u k v, set = u ++ k :: v /\ k_alg k = Some (Signs (h_alg h)) /\ only_signing u) -> picked sets h set.
End Valid.

(** The scopes a token grants: the words of a string, or the strings of a list *)
Definition granted (names : list string) (more : list (string * claim)) (l : option (list string)) : Prop :=
  (exists c, l = Some c /\
     exists a n b v, names = a ++ n :: b /\ Forall (fun m => forall w, ~ In (m, w) more) a /\ In (n, v) more /\
       ((exists s, v = CStr s /\ pieces " " s c) \/
        (exists items, v = CArr items /\ Forall2 (fun x y => x = Some y) (filter (fun x => match x with Some _ => true | None => false end) items) c))) \/
  (l = None /\
     (Forall (fun m => forall w, ~ In (m, w) more) names \/
      exists a n b, names = a ++ n :: b /\ Forall (fun m => forall w, ~ In (m, w) more) a /\ In (n, COther) more)).
