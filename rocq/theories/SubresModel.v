(** Reading a subgraph's answer.
    Models executor/response/subgraph_response.rs:37-292, executor/response/value.rs:283-368 and
    query_planner/planner/plan_nodes.rs:141-335. *)
From Coq Require Import String List NArith ZArith Bool.
From Verif Require Import StrOrd JsonModel Ast.
Import ListNotations.
Local Open Scope string_scope.

(** A JSON text as the parser walks over it: every value with the text it was written as, every
    key with whether it was written with escapes ([true]).  A key is read as a borrowed [&str],
    which sonic_rs refuses for an escaped one. *)
Inductive doc :=
| DNull (text : string)
| DBool (text : string) (b : bool)
| DU64 (text : string) (n : N)
| DI64 (text : string) (z : Z)
| DF64 (text : string) (bits : N)
| DStr (text : string) (s : string)
| DArr (text : string) (l : list doc)
| DObj (text : string) (o : list (string * bool * doc)).

Definition text (d : doc) : string :=
  match d with
  | DNull t | DBool t _ | DU64 t _ | DI64 t _ | DF64 t _ | DStr t _ | DArr t _ | DObj t _ => t
  end.

(** [?] inside a loop over a sequence. *)
Section Traverse.
Context {A B : Type} (f : A -> option B).
Fixpoint traverse (l : list A) : option (list B) :=
  match l with
  | [] => Some []
  | x :: l' =>
      match f x with
      | None => None
      | Some y => match traverse l' with None => None | Some r => Some (y :: r) end
      end
  end.
End Traverse.

(** [sort_unstable_by_key]; keys of one object are expected to differ. *)
Fixpoint insert_key (kv : string * value) (l : list (string * value)) : list (string * value) :=
  match l with
  | [] => [kv]
  | x :: l' =>
      match String.compare (fst kv) (fst x) with
      | Gt => x :: insert_key kv l'
      | _ => kv :: l
      end
  end.
Definition sort_keys (l : list (string * value)) : list (string * value) := fold_right insert_key [] l.

(** value.rs:283-368; [None] is a deserialization error. *)
Fixpoint structured (d : doc) : option value :=
  match d with
  | DNull _ => Some VNull
  | DBool _ b => Some (VBool b)
  | DU64 _ n => Some (VU64 n)
  | DI64 _ z => Some (VI64 z)
  | DF64 _ b => Some (VF64 b)
  | DStr _ s => Some (VStr s)
  | DArr _ l => option_map VArr (traverse structured l)
  | DObj _ o =>
      option_map (fun e => VObj (sort_keys e))
        (traverse (fun kd : string * bool * doc =>
           let '(k, esc, d) := kd in
           if esc then None else option_map (pair k) (structured d)) o)
  end.

(** [CustomScalarPaths], plan_nodes.rs:141-169 *)
Inductive paths := Paths (children : list (string * paths)) (terminal : bool).
Definition children (p : paths) : list (string * paths) := let 'Paths c _ := p in c.
Definition terminal (p : paths) : bool := let 'Paths _ t := p in t.
Definition is_empty (p : paths) : bool :=
  negb (terminal p) && match children p with [] => true | _ => false end.
Definition empty_paths := Paths [] false.

(** subgraph_response.rs:155-251 *)
Fixpoint with_paths (p : paths) (d : doc) : option value :=
  if is_empty p then structured d
  else if terminal p then Some (VRaw (text d))
  else match d with
  | DNull _ => Some VNull
  | DBool _ b => Some (VBool b)
  | DU64 _ n => Some (VU64 n)
  | DI64 _ z => Some (VI64 z)
  | DF64 _ b => Some (VF64 b)
  | DStr _ s => Some (VStr s)
  | DArr _ l => option_map VArr (traverse (with_paths p) l)
  | DObj _ o =>
      option_map (fun e => VObj (sort_keys e))
        (traverse (fun kd : string * bool * doc =>
           let '(k, esc, d) := kd in
           if esc then None
           else option_map (pair k)
                  (match get k (children p) with
                   | Some c => if is_empty c then structured d else with_paths c d
                   | None => structured d
                   end)) o)
  end.

Section Response.
(** Errors are read by serde's derived code; [None] is a failure. *)
Context {E : Type} (errors_of : doc -> option (list E)).

Record response := { r_data : value; r_errors : option (list E); r_extensions : option value }.
Inductive failure := DeserializationFailure | MalformedResponse.

(** subgraph_response.rs:88-133 *)
Fixpoint visit_map (p : paths) (o : list (string * bool * doc))
    (data : option value) (errors : option (list E)) (extensions : option value) : option response :=
  match o with
  | [] =>
      Some {| r_data := match data with Some v => v | None => VNull end;
              r_errors := errors; r_extensions := extensions |}
  | (k, esc, d) :: o' =>
      if esc then None
      else if String.eqb k "data" then
        match data with
        | Some _ => None
        | None => match with_paths p d with
                  | Some v => visit_map p o' (Some v) errors extensions
                  | None => None
                  end
        end
      else if String.eqb k "errors" then
        match errors with
        | Some _ => None
        | None => match errors_of d with
                  | Some es => visit_map p o' data (Some es) extensions
                  | None => None
                  end
        end
      else if String.eqb k "extensions" then
        match extensions with
        | Some _ => None
        | None => match structured d with
                  | Some v => visit_map p o' data errors (Some v)
                  | None => None
                  end
        end
      else visit_map p o' data errors extensions
  end.

(** subgraph_response.rs:259-292; [trailing] tells whether something follows the JSON value. *)
Definition deserialize (custom : option paths) (d : doc) (trailing : bool) : response + failure :=
  match d with
  | DObj _ o =>
      match visit_map (match custom with Some p => p | None => empty_paths end) o None None None with
      | None => inr DeserializationFailure
      | Some r =>
          if trailing then inr DeserializationFailure
          else if is_null (r_data r) && (match r_errors r with None => true | Some _ => false end)
          then inr MalformedResponse
          else inl r
      end
  | _ => inr DeserializationFailure
  end.
End Response.

(** ** Which paths are custom scalars *)

(** [BTreeMap::entry(k).or_default()] updated in place. *)
Section Update.
Context {A : Type} (default : A) (f : A -> A).
Fixpoint update (k : string) (l : list (string * A)) : list (string * A) :=
  match l with
  | [] => [(k, f default)]
  | (k', a) :: l' => if String.eqb k k' then (k', f a) :: l' else (k', a) :: update k l'
  end.
End Update.

(** plan_nodes.rs:151-164 *)
Fixpoint insert_path (ks : list string) (p : paths) : paths :=
  match ks with
  | [] => Paths (children p) true
  | k :: ks' => Paths (update empty_paths (insert_path ks') k (children p)) (terminal p)
  end.

(** plan_nodes.rs:171-224 *)
Inductive pstate := PState (pchildren : list (string * pstate)) (custom_seen standard_seen : bool).
Definition pchildren (s : pstate) := let 'PState c _ _ := s in c.
Definition custom_seen (s : pstate) := let 'PState _ c _ := s in c.
Definition standard_seen (s : pstate) := let 'PState _ _ b := s in b.
Definition empty_state := PState [] false false.

Fixpoint mark (custom : bool) (ks : list string) (s : pstate) : pstate :=
  match ks with
  | [] => if custom then PState (pchildren s) true (standard_seen s) else PState (pchildren s) (custom_seen s) true
  | k :: ks' => PState (update empty_state (mark custom ks') k (pchildren s)) (custom_seen s) (standard_seen s)
  end.

Fixpoint into_paths (s : pstate) : option paths :=
  let '(PState ch c std) := s in
  let ch' := (fix go (l : list (string * pstate)) : list (string * paths) :=
                match l with
                | [] => []
                | (k, s) :: l' => match into_paths s with Some p => (k, p) :: go l' | None => go l' end
                end) ch in
  let p := Paths ch' (c && negb std && match ch' with [] => true | _ => false end) in
  if is_empty p then None else Some p.

Section Collect.
(** The fields of a type with their inner types, and the custom scalars of the supergraph. *)
Context (fields : string -> option (string -> option string)) (is_custom_scalar : string -> bool).

(** plan_nodes.rs:227-284; [path] is the response path, outermost key first. *)
Fixpoint collect_item (s : sel) : string -> list string -> pstate -> pstate :=
  match s with
  | SField name alias _ _ _ _ sub => fun parent path st =>
      match fields parent with
      | None => st
      | Some fs =>
          match fs name with
          | None => st
          | Some ty =>
              let path' := (path ++ [match alias with Some a => a | None => name end])%list in
              if is_custom_scalar ty then mark true path' st
              else fold_left (fun st s => collect_item s ty path' st) sub (mark false path' st)
          end
      end
  | SFrag t _ _ sub => fun parent path st =>
      match fields parent with
      | None => st
      | Some _ => fold_left (fun st s => collect_item s t path st) sub st
      end
  | SSpread _ => fun _ _ st => st
  end.
Definition collect (parent : string) (path : list string) (sels : list sel) (st : pstate) : pstate :=
  fold_left (fun st s => collect_item s parent path st) sels st.

(** plan_nodes.rs:286-308 *)
Definition paths_of_fetch (outputs : list (string * list sel)) (entities_root : option string) : option paths :=
  let path := match entities_root with Some r => [r] | None => [] end in
  into_paths (fold_left (fun st ts => collect (fst ts) path (snd ts) st) outputs empty_state).
End Collect.
