(** Masking of subgraph errors.
    Models bin/router/src/executor/execution/error_masking.rs:18-162, config/error_masking.rs:5-99, the
    reading of error extensions (response/graphql_error.rs:309-369) and the places where errors are
    masked (execution/plan.rs:183-196, 385-388, 672-676, execution/error.rs:96-115). *)
From Coq Require Import String Ascii List NArith Bool.
From Verif Require Import StrOrd JsonModel TraverseModel EntityModel.
Import ListNotations.
Local Open Scope string_scope.

(** ** Reading the extensions of an error sent by a subgraph *)
Record gext := mkext { x_code : option string; x_service : option string; x_affected : option string; x_rest : list (string * value) }.
(** [BTreeMap::insert] *)
Fixpoint vinsert (k : string) (v : value) (m : list (string * value)) : list (string * value) :=
  match m with
  | [] => [(k, v)]
  | (k', v') :: m' => match String.compare k k' with
                      | Lt => (k, v) :: m
                      | Eq => (k, v) :: m'
                      | Gt => (k', v') :: vinsert k v m'
                      end
  end.
(** graphql_error.rs:323-363; [None] is a deserialization error. *)
Fixpoint read_ext (o : list (string * value)) (x : gext) : option gext :=
  match o with
  | [] => Some x
  | (k, v) :: o' =>
      if String.eqb k "code" then
        match x_code x, v with
        | None, VStr s => read_ext o' (mkext (Some s) (x_service x) (x_affected x) (x_rest x))
        | _, _ => None
        end
      else if String.eqb k "service" then
        match x_service x, v with
        | None, VStr s => read_ext o' (mkext (x_code x) (Some s) (x_affected x) (x_rest x))
        | _, _ => None
        end
      else if String.eqb k "affectedPath" then
        match x_affected x, v with
        | None, VStr s => read_ext o' (mkext (x_code x) (x_service x) (Some s) (x_rest x))
        | None, VNull => read_ext o' x
        | _, _ => None
        end
      else read_ext o' (mkext (x_code x) (x_service x) (x_affected x) (vinsert k v (x_rest x)))
  end.
(** An error as a subgraph sends it. *)
Record rawerr := mkraw { w_message : string; w_locations : list (N * N); w_path : option (list eseg); w_ext : list (string * value) }.
Definition read_error (w : rawerr) : option gerror :=
  match read_ext (w_ext w) (mkext None None None []) with
  | Some x => Some (mkerr (w_message w) (w_locations w) (w_path w) (x_code x) (x_service x) (x_affected x) (x_rest x))
  | None => None
  end.
Fixpoint read_errors (l : list rawerr) : option (list gerror) :=
  match l with
  | [] => Some []
  | w :: l' => match read_error w, read_errors l' with Some e, Some es => Some (e :: es) | _, _ => None end
  end.
(** The extensions as written to the client, graphql_error.rs:293-305. *)
Definition opt_pair (k : string) (o : option string) : list (string * value) := match o with Some s => [(k, VStr s)] | None => [] end.
Definition ext_pairs (e : gerror) : list (string * value) :=
  (opt_pair "code" (e_code e) ++ opt_pair "service" (e_service e) ++ opt_pair "affectedPath" (e_affected e) ++ e_ext e)%list.

(** ** Configuration *)
Inductive ext_policy := Allow (keys : list string) | Deny (keys : list string).
Record sub_cfg := mksub { s_enabled : option bool; s_ext : option ext_policy }.
Record mask_cfg := mkcfg { m_enabled : bool; m_message : string; m_all : bool; m_all_ext : option ext_policy;
                           m_subgraphs : option (list (string * sub_cfg)) }.
Record runtime := mkrt { t_message : string; t_default : bool; t_per : list (string * bool);
                         t_default_ext : option ext_policy; t_per_ext : list (string * option ext_policy) }.
(** error_masking.rs:43-77 *)
Definition compile (c : mask_cfg) : option runtime :=
  if m_enabled c then
    let subs := match m_subgraphs c with Some l => l | None => [] end in
    Some (mkrt (m_message c) (m_all c)
            (map (fun nc => (fst nc, match s_enabled (snd nc) with Some b => b | None => m_all c end)) subs)
            (m_all_ext c) (map (fun nc => (fst nc, s_ext (snd nc))) subs))
  else None.
Definition aget {A} (k : string) (l : list (string * A)) : option A := option_map snd (find (fun kv => String.eqb k (fst kv)) l).
Definition unset_code (e : gerror) := mkerr (e_message e) (e_locations e) (e_path e) None (e_service e) (e_affected e) (e_ext e).
Definition unset_service (e : gerror) := mkerr (e_message e) (e_locations e) (e_path e) (e_code e) None (e_affected e) (e_ext e).
Definition unset_affected (e : gerror) := mkerr (e_message e) (e_locations e) (e_path e) (e_code e) (e_service e) None (e_ext e).
Definition with_ext (x : list (string * value)) (e : gerror) :=
  mkerr (e_message e) (e_locations e) (e_path e) (e_code e) (e_service e) (e_affected e) x.
(** error_masking.rs:146-161 *)
Definition remove_field (e : gerror) (k : string) : gerror :=
  if String.eqb k "code" then unset_code e
  else if String.eqb k "service" then unset_service e
  else if String.eqb k "affectedPath" then unset_affected e
  else with_ext (filter (fun kv => negb (String.eqb k (fst kv))) (e_ext e)) e.
(** error_masking.rs:112-144 *)
Definition allow_list (e : gerror) (l : list string) : gerror :=
  let mem k := existsb (String.eqb k) l in
  let other := filter (fun k => negb (String.eqb k "code") && negb (String.eqb k "service") && negb (String.eqb k "affectedPath")) l in
  let e := if mem "code" then e else unset_code e in
  let e := if mem "service" then e else unset_service e in
  let e := if mem "affectedPath" then e else unset_affected e in
  with_ext (filter (fun kv => existsb (String.eqb (fst kv)) other) (e_ext e)) e.
(** error_masking.rs:95-110 *)
Definition apply_policy (p : ext_policy) (e : gerror) : gerror :=
  match p with Allow l => allow_list e l | Deny l => fold_left remove_field l e end.
Definition with_message (m : string) (e : gerror) :=
  mkerr m (e_locations e) (e_path e) (e_code e) (e_service e) (e_affected e) (e_ext e).
(** error_masking.rs:19-41 *)
Definition apply_mask (r : runtime) (e : gerror) : gerror :=
  match e_service e with
  | Some s =>
      let e := if match aget s (t_per r) with Some b => b | None => t_default r end then with_message (t_message r) e else e in
      match match aget s (t_per_ext r) with Some (Some p) => Some p | _ => t_default_ext r end with
      | Some p => apply_policy p e
      | None => e
      end
  | None => e
  end.
(** plan.rs:672-676 *)
Definition mask (c : mask_cfg) (es : list gerror) : list gerror :=
  match compile c with Some r => map (apply_mask r) es | None => es end.
(** [From<&PlanExecutionError>], error.rs:96-115: a fetch that failed. *)
Definition failure (message code : string) (service affected : option string) : gerror :=
  let e := mkerr message [] None (Some code) None None [] in
  let e := match service with Some s => add_subgraph_name s e | None => e end in
  match affected with Some p => add_affected_path p e | None => e end.
(** plan.rs:385-388: the errors of a subscription event become the initial errors of its execution;
    [fetched] are those of the entity fetches that follow. *)
Definition event_errors (c : mask_cfg) (initial : list gerror) (event : option (list gerror)) (fetched : list gerror) : list gerror :=
  mask c ((initial ++ match event with Some es => es | None => [] end) ++ fetched)%list.
