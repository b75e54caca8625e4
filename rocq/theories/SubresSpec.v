(** What a subgraph's answer says. *)
From Coq Require Import String List NArith ZArith Bool Permutation.
From Verif Require Import StrOrd JsonModel Ast SubresModel.
Import ListNotations.
Local Open Scope string_scope.

(** The tree [v] says what the document [d] says: members may be reordered, and a part may be
    kept as it was written. *)
Inductive says : value -> doc -> Prop :=
| says_null t : says VNull (DNull t)
| says_bool t b : says (VBool b) (DBool t b)
| says_u64 t n : says (VU64 n) (DU64 t n)
| says_i64 t z : says (VI64 z) (DI64 t z)
| says_f64 t b : says (VF64 b) (DF64 t b)
| says_str t s : says (VStr s) (DStr t s)
| says_raw d : says (VRaw (text d)) d
| says_arr t vs l : Forall2 says vs l -> says (VArr vs) (DArr t l)
| says_obj t e e' o : Permutation e e' ->
    Forall2 (fun kv kd => fst kv = fst (fst kd) /\ says (snd kv) (snd kd)) e' o -> says (VObj e) (DObj t o).

(** No key written with escapes. *)
Inductive plain_keys : doc -> Prop :=
| pk_null t : plain_keys (DNull t)
| pk_bool t b : plain_keys (DBool t b)
| pk_u64 t n : plain_keys (DU64 t n)
| pk_i64 t z : plain_keys (DI64 t z)
| pk_f64 t b : plain_keys (DF64 t b)
| pk_str t s : plain_keys (DStr t s)
| pk_arr t l : Forall plain_keys l -> plain_keys (DArr t l)
| pk_obj t o : Forall (fun kd => snd (fst kd) = false /\ plain_keys (snd kd)) o -> plain_keys (DObj t o).

(** The keys of every object differ. *)
Inductive distinct_keys : doc -> Prop :=
| dk_null t : distinct_keys (DNull t)
| dk_bool t b : distinct_keys (DBool t b)
| dk_u64 t n : distinct_keys (DU64 t n)
| dk_i64 t z : distinct_keys (DI64 t z)
| dk_f64 t b : distinct_keys (DF64 t b)
| dk_str t s : distinct_keys (DStr t s)
| dk_arr t l : Forall distinct_keys l -> distinct_keys (DArr t l)
| dk_obj t o : NoDup (map (fun kd => fst (fst kd)) o) -> Forall (fun kd => distinct_keys (snd kd)) o ->
    distinct_keys (DObj t o).

(** The path of keys [ks] is marked in [p]. *)
Fixpoint marked (p : paths) (ks : list string) : bool :=
  match ks with
  | [] => terminal p
  | k :: ks' => match get k (children p) with Some c => marked c ks' | None => false end
  end.

(** [w] is found in [v] at the path of keys [ks], whatever the list positions on the way. *)
Inductive found : value -> list string -> value -> Prop :=
| found_here v : found v [] v
| found_item l v ks w : In v l -> found v ks w -> found (VArr l) ks w
| found_member o k v ks w : In (k, v) o -> found v ks w -> found (VObj o) (k :: ks) w.

Definition the_paths (custom : option paths) : paths := match custom with Some p => p | None => empty_paths end.
Definition is_raw (w : value) : Prop := exists s, w = VRaw s.
Definition mp (o : option paths) (ks : list string) : bool :=
  match o with Some p => marked p ks | None => false end.

(** The members of an object called [n]. *)
Definition members (n : string) (o : list (string * bool * doc)) : list doc :=
  map snd (filter (fun kd => String.eqb (fst (fst kd)) n) o).

(** At most one member; [absent] and [present] say what that means. *)
Definition optional {A} (read : doc -> option A) (ds : list doc) (a : option A) : Prop :=
  match ds with
  | [] => a = None
  | [d] => exists x, read d = Some x /\ a = Some x
  | _ => False
  end.

Definition known (k : string) : Prop := k = "data" \/ k = "errors" \/ k = "extensions".

(** Fields selected at a response path. *)
Section Selected.
Context (fields : string -> option (string -> option string)) (is_custom_scalar : string -> bool).
Inductive selected : string -> list sel -> list string -> string -> Prop :=
| sel_field parent sels name alias args i s om sub fs ty :
    In (SField name alias args i s om sub) sels -> fields parent = Some fs -> fs name = Some ty ->
    selected parent sels [match alias with Some a => a | None => name end] ty
| sel_below parent sels name alias args i s om sub fs ty ks ty' :
    In (SField name alias args i s om sub) sels -> fields parent = Some fs -> fs name = Some ty ->
    is_custom_scalar ty = false -> selected ty sub ks ty' ->
    selected parent sels (match alias with Some a => a | None => name end :: ks) ty'
| sel_fragment parent sels t i s sub fs ks ty :
    In (SFrag t i s sub) sels -> fields parent = Some fs -> selected t sub ks ty ->
    selected parent sels ks ty.

Definition selected_in (outputs : list (string * list sel)) (entities_root : option string) (ks : list string) (ty : string) : Prop :=
  exists t sels ks', In (t, sels) outputs /\ selected t sels ks' ty /\
    ks = match entities_root with Some r => r :: ks' | None => ks' end.
End Selected.
