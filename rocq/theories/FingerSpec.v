(** When two requests are the same. *)
From Coq Require Import String Ascii List NArith ZArith Bool Permutation.
From Verif Require Import StrUtil JsonModel HeadersModel RequiresModel RequiresSpec FingerModel.
Import ListNotations.
Local Open Scope N_scope.

Definition nonzero (s : string) : bool := all_chars (fun c => negb (N_of_ascii c =? 0)) s.
Definition ok_method (m : method) : Prop := match m with MStd i => i < 9 | MExt s => len s < 2 ^ 64 end.
(** A path has no query mark and no zero byte. *)
Definition ok_uri (u : uri) : Prop :=
  len (u_auth u) < 2 ^ 64 /\ nonzero (u_path u) = true /\ has_char "?" (u_path u) = false /\
  match u_query u with Some q => nonzero q = true | None => True end.
(** Names as [http::HeaderName] admits them; at most 2^15 entries in a [HeaderMap]. *)
Definition ok_headers (h : headers) : Prop :=
  (forall n v, In (n, v) h -> n <> ""%string /\ nonzero n = true /\ no_ff n = true) /\ N.of_nat (List.length h) < 65536.
(** The same resource: scheme, host (whatever its case), path and query. *)
Definition same_uri (u u' : uri) : Prop :=
  u_https u = u_https u' /\ lower (u_auth u) = lower (u_auth u') /\ u_path u = u_path u' /\ u_query u = u_query u'.
(** The same values for every header, in the same order. *)
Definition same_headers (h h' : headers) : Prop := forall n, hget_all n h = hget_all n h'.
(** Every name once, with a printable value. *)
Definition plain (h : headers) : Prop := NoDup (map fst h) /\ forall n v, In (n, v) h -> visible v = true.
(** The last printable value of a name. *)
Definition last_visible (n : string) (h : headers) : option string :=
  match rev (filter visible (hget_all n h)) with v :: _ => Some v | [] => None end.

(** Requests to subgraphs within the limits above. *)
Definition ok_sreq (r : sreq) : Prop :=
  ok_method (r_method r) /\ ok_uri (r_uri r) /\ ok_headers (r_headers r) /\ N.of_nat (length (r_body r)) < 2 ^ 64.

(** JSON as it comes from a client. *)
Fixpoint ok_json (v : value) : Prop :=
  match v with
  | VNull | VBool _ => True
  | VI64 z => (- 2 ^ 63 <= z < 2 ^ 63)%Z
  | VU64 n => 2 ^ 63 <= n < 2 ^ 64
  | VF64 b => b < 2 ^ 64
  | VStr s => no_ff s = true
  | VRaw _ => False
  | VArr l => N.of_nat (List.length l) < 2 ^ 64 /\ (fix go l := match l with [] => True | x :: l' => ok_json x /\ go l' end) l
  | VObj o => N.of_nat (List.length o) < 2 ^ 64 /\
              (fix go o := match o with [] => True | kv :: o' => (no_ff (fst kv) = true /\ ok_json (snd kv)) /\ go o' end) o
  end.
Definition ok_vars (vars : list (string * value)) : Prop :=
  NoDup (map fst vars) /\ N.of_nat (List.length vars) < 2 ^ 64 /\ forall k v, In (k, v) vars -> no_ff k = true /\ ok_json v.
Definition lookup (k : string) (vars : list (string * value)) : option value :=
  option_map snd (find (fun kv => String.eqb k (fst kv)) vars).
Definition same_vars (a b : list (string * value)) : Prop := forall k, lookup k a = lookup k b.

(** [H] tells these two inputs apart. *)
Definition tells (H : list N -> N) (a b : list N) : Prop := H a = H b -> a = b.
Definition ok_creq (c : creq) : Prop :=
  ok_method (c_method c) /\ no_ff (c_path c) = true /\ ok_headers (c_headers c) /\ c_schema c < 2 ^ 64 /\
  c_plan_hash c < 2 ^ 64 /\ match c_intro_hash c with Some h => h < 2 ^ 64 | None => True end /\
  ok_vars (c_vars c) /\ match c_exts c with Some e => ok_vars e | None => True end.
(** No collision among the hashes of two client requests. *)
Definition no_collision (H : list N -> N) (p : policy) (c c' : creq) : Prop :=
  (forall l, H l < 2 ^ 64) /\
  tells H (enc_client H p c) (enc_client H p c') /\
  tells H (enc_connection (c_method c) (c_path c) (c_headers c) p (c_schema c))
          (enc_connection (c_method c') (c_path c') (c_headers c') p (c_schema c')) /\
  tells H (enc_operation (c_plan_hash c) (c_intro_hash c)) (enc_operation (c_plan_hash c') (c_intro_hash c')) /\
  tells H (enc_variables (c_vars c)) (enc_variables (c_vars c')) /\
  match c_exts c, c_exts c' with
  | Some e, Some e' => tells H (enc_variables e) (enc_variables e')
  | Some e, None | None, Some e => H (enc_variables e) <> 0
  | None, None => True
  end.
Definition same_client_request (p : policy) (c c' : creq) : Prop :=
  c_method c = c_method c' /\ c_path c = c_path c' /\ c_schema c = c_schema c' /\
  c_plan_hash c = c_plan_hash c' /\ c_intro_hash c = c_intro_hash c' /\
  same_vars (c_vars c) (c_vars c') /\
  match c_exts c, c_exts c' with Some e, Some e' => same_vars e e' | None, None => True | _, _ => False end.
(** The printable values of an included header agree, up to order. *)
Definition same_included (p : policy) (h h' : headers) : Prop :=
  forall n, should_include p n = true -> Permutation (filter visible (hget_all n h)) (filter visible (hget_all n h')).
