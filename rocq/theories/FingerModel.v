(** Fingerprints of requests, as the bytes fed to the hash.
    Models [impl Hash for SendRequestOpts] (bin/router/src/executor/executors/dedupe.rs:10-26), the
    decision to share a subgraph request (executor/executors/http.rs:340-404), and the fingerprints of
    client requests (pipeline/mod.rs:922-1026, shared_state.rs:50-66, pipeline/normalize.rs:109-128).
    The [Hash] implementations of [http::Method] and [http::Uri] are modelled as in the http crate;
    [Xxh3] uses the default [Hasher] methods: integers little-endian, strings ended by 0xff, slices
    prefixed by their length. *)
From Coq Require Import String Ascii List NArith ZArith Bool.
From Verif Require Import StrOrd StrUtil JsonModel HeadersModel RequiresModel.
Import ListNotations.
Local Open Scope N_scope.
Local Open Scope list_scope.

Definition raw (s : string) : list N := map N_of_ascii (list_ascii_of_string s).
Definition len (s : string) : N := N.of_nat (String.length s).

(** [http::Method]: nine standard methods, or an extension stored inline (up to 15 bytes) or not. *)
Inductive method := MStd (i : N) | MExt (name : string).
Fixpoint pad (n : nat) (l : list N) : list N :=
  match n with O => [] | S n' => match l with [] => 0 :: pad n' [] | x :: l' => x :: pad n' l' end end.
Definition enc_method (m : method) : list N :=
  match m with
  | MStd i => le 8 i
  | MExt s => if len s <=? 15 then le 8 9 ++ le 8 15 ++ pad 15 (raw s) ++ [len s]
              else le 8 10 ++ le 8 (len s) ++ raw s
  end.
(** An absolute [http::Uri]; its hash ignores the case of the authority, and path and query are
    written without an end mark. *)
Record uri := mkuri { u_https : bool; u_auth : string; u_path : string; u_query : option string }.
Definition path_bytes (u : uri) : list N := raw (u_path u) ++ match u_query u with Some q => 63 :: raw q | None => [] end.
Definition enc_uri (u : uri) : list N :=
  [if u_https u then 2 else 1; 255] ++ le 8 (len (u_auth u)) ++ raw (lower (u_auth u)) ++ path_bytes u.

(** [HeaderValue::to_str] *)
Definition visible (v : string) : bool := all_chars (fun c => let n := N_of_ascii c in ((32 <=? n) && (n <? 127)) || (n =? 9)) v.
(** [BTreeMap::insert] *)
Fixpoint binsert (k v : string) (m : list (string * string)) : list (string * string) :=
  match m with
  | [] => [(k, v)]
  | (k', v') :: m' => match String.compare k k' with
                      | Lt => (k, v) :: m
                      | Eq => (k, v) :: m'
                      | Gt => (k', v') :: binsert k v m'
                      end
  end.
(** dedupe.rs:13-18 *)
Definition seen (h : headers) : list (string * string) :=
  fold_left (fun m kv => if visible (snd kv) then binsert (fst kv) (snd kv) m else m) h [].
Definition enc_pair (kv : string * string) : list N := str_bytes (fst kv) ++ str_bytes (snd kv).
Definition enc_pairs (l : list (string * string)) : list N := le 8 (N.of_nat (length l)) ++ flat_map enc_pair l.

Record sreq := mksreq { r_method : method; r_uri : uri; r_headers : headers; r_body : list N }.
(** dedupe.rs:20-23 *)
Definition enc_sreq (r : sreq) : list N :=
  enc_method (r_method r) ++ enc_uri (r_uri r) ++ enc_pairs (seen (r_headers r)) ++ le 8 (N.of_nat (length (r_body r))) ++ r_body r.
(** dedupe.rs:30-34; [H] is the 64-bit hash. *)
Definition fingerprint (H : list N -> N) (r : sreq) : N := H (enc_sreq r).

(** http.rs:340-404: what the flag says after the plugins (each may change it), and what is done. *)
Definition dedupe_flag (enabled op_dedupe : bool) (plugins : list (bool -> bool)) : bool :=
  fold_left (fun b f => f b) plugins (negb enabled || negb op_dedupe).
Definition shares (enabled op_dedupe : bool) (plugins : list (bool -> bool)) : bool :=
  if dedupe_flag enabled op_dedupe plugins then false else true.

(** ** Client requests *)
(** shared_state.rs:50-66 *)
Inductive policy := PAll | PNone | PInclude (names : list string).
Definition should_include (p : policy) (n : string) : bool :=
  match p with PAll => true | PNone => false | PInclude l => existsb (String.eqb n) l end.
(** Order of pairs of strings, and [sort_unstable] (equal elements are the same). *)
Definition pair_leb (a b : string * string) : bool :=
  match String.compare (fst a) (fst b) with
  | Lt => true
  | Gt => false
  | Eq => match String.compare (snd a) (snd b) with Gt => false | _ => true end
  end.
Fixpoint pinsert (x : string * string) (l : list (string * string)) : list (string * string) :=
  match l with
  | [] => [x]
  | y :: l' => if pair_leb x y then x :: l else y :: pinsert x l'
  end.
Definition psort (l : list (string * string)) : list (string * string) := fold_right pinsert [] l.
(** pipeline/mod.rs:931-936 *)
Definition included (p : policy) (h : headers) : list (string * string) :=
  psort (filter (fun kv => visible (snd kv)) (filter (fun kv => should_include p (fst kv)) h)).
(** pipeline/mod.rs:922-943 *)
Definition enc_connection (m : method) (path : string) (h : headers) (p : policy) (schema : N) : list N :=
  enc_method m ++ str_bytes path ++ enc_pairs (included p h) ++ le 8 schema.
(** pipeline/mod.rs:988-1026: numbers are tried as i64, then u64, then f64; [VRaw] does not occur in
    client input. *)
Fixpoint enc_json (v : value) : list N :=
  match v with
  | VNull => [0]
  | VBool b => [1; if b then 1 else 0]
  | VI64 z => [2; 0] ++ le 8 (z_bits z)
  | VU64 n => [2; 1] ++ le 8 n
  | VF64 b => [2; 2] ++ le 8 b
  | VStr s => 3 :: str_bytes s
  | VObj o => 4 :: le 8 (N.of_nat (length o)) ++ flat_map (fun kv => str_bytes (fst kv) ++ enc_json (snd kv)) o
  | VArr l => 5 :: le 8 (N.of_nat (length l)) ++ flat_map enc_json l
  | VRaw s => []
  end.
(** Keys of the map, sorted; pipeline/mod.rs:959-974. *)
Fixpoint kinsert (k : string) (l : list string) : list string :=
  match l with [] => [k] | x :: l' => match String.compare k x with Gt => x :: kinsert k l' | _ => k :: l end end.
Definition ksort (l : list string) : list string := fold_right kinsert [] l.
Definition enc_variables (vars : list (string * value)) : list N :=
  let keys := ksort (map fst vars) in
  le 8 (N.of_nat (length keys)) ++
  flat_map (fun k => str_bytes k ++ match find (fun kv => String.eqb k (fst kv)) vars with Some kv => enc_json (snd kv) | None => [] end) keys.
(** normalize.rs:109-128 *)
Definition enc_operation (plan : N) (introspection : option N) : list N :=
  le 8 plan ++ match introspection with Some h => 1 :: le 8 h | None => [0] end.
Record creq := mkcreq {
  c_method : method; c_path : string; c_headers : headers; c_schema : N;
  c_plan_hash : N; c_intro_hash : option N;
  c_vars : list (string * value); c_exts : option (list (string * value)) }.
(** pipeline/mod.rs:455-468,945-957 *)
Definition enc_client (H : list N -> N) (p : policy) (c : creq) : list N :=
  le 8 (H (enc_connection (c_method c) (c_path c) (c_headers c) p (c_schema c)))
  ++ le 8 (H (enc_operation (c_plan_hash c) (c_intro_hash c)))
  ++ le 8 (H (enc_variables (c_vars c)))
  ++ le 8 (match c_exts c with Some e => H (enc_variables e) | None => 0 end).
Definition client_fingerprint (H : list N -> N) (p : policy) (c : creq) : N := H (enc_client H p c).
