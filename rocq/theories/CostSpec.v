(** What an operation costs, without a bound on the numbers, and what may then be called. *)
From Coq Require Import String List Bool NArith ZArith.
From Verif Require Import StrOrd Ast JsonModel MergeModel TraverseModel RewriteModel RequiresModel EntityModel
  ExecModel CostModel.
Import ListNotations.
Local Open Scope N_scope.
Local Open Scope string_scope.
Local Open Scope list_scope.

Fixpoint total (l : list N) : N := match l with [] => 0 | n :: l' => n + total l' end.
Fixpoint greatest (l : list N) : N := match l with [] => 0 | n :: l' => N.max n (greatest l') end.
(** Two numbers a [u64] cannot tell apart. *)
Definition same_u64 (a b : N) : Prop := N.min 18446744073709551615 a = N.min 18446744073709551615 b.

(** ** Fragments put in place of their spreads *)
Inductive inlined (frags : list frag) : list sel -> list sel -> Prop :=
| inl_nil : inlined frags [] []
| inl_field n a args i s o sub sub' l l' : inlined frags sub sub' -> inlined frags l l' ->
    inlined frags (SField n a args i s o sub :: l) (SField n a args i s o sub' :: l')
| inl_frag t i s sub sub' l l' : inlined frags sub sub' -> inlined frags l l' ->
    inlined frags (SFrag t i s sub :: l) (SFrag t i s sub' :: l')
| inl_spread f sub' l l' : In f frags -> inlined frags (fr_sels f) sub' -> inlined frags l l' ->
    inlined frags (SSpread (fr_name f) :: l) (SFrag (fr_type f) None None sub' :: l').
(** Below [_entities] there are no spreads (ast/minification/stats.rs:77-106). *)
Definition is_spread (s : sel) : bool := match s with SSpread _ => true | _ => false end.
Fixpoint entities_inline (s : sel) : bool :=
  match s with
  | SField n _ _ _ _ _ sub =>
      (if String.eqb n "_entities" then forallb (fun x => negb (is_spread x)) sub else true) && forallb entities_inline sub
  | SFrag _ _ _ sub => forallb entities_inline sub
  | SSpread _ => true
  end.

Section S.
Context (sc : cschema) (dsize : N) (vars : option (list (string * value))).

(** ** Values with the variables filled in *)
Definition var (n : string) : value :=
  match vars with Some vs => match get n vs with Some v => v | None => VNull end | None => VNull end.
Fixpoint plug (v : gvalue) : value :=
  match v with
  | GVar n => var n
  | GInt z => VI64 z
  | GFloat b => VF64 b
  | GStr s | GEnum s => VStr s
  | GBool b => VBool b
  | GNull => VNull
  | GList l => VArr (map plug l)
  | GObj o => VObj (map (fun kv => (fst kv, plug (snd kv))) o)
  end.
Definition holds (n : string) : bool := match var n with VBool b => b | _ => false end.
Definition present (inc skip : option string) : bool :=
  match inc with Some v => holds v | None => true end && negb (match skip with Some v => holds v | None => false end).

(** The size a value asks for: a number, or as many as a list has members. *)
Definition count (v : value) : option N :=
  match v with
  | VU64 n => Some n
  | VI64 z => Some (Z.to_N z)
  | VArr l => Some (N.of_nat (length l))
  | _ => None
  end.
Fixpoint at_keys (path : list string) (v : value) : option value :=
  match path, v with
  | [], _ => Some v
  | k :: path', VObj o => match get k o with Some x => at_keys path' x | None => None end
  | _, _ => None
  end.
Definition size_given (v : gvalue) (path : list string) : list N :=
  match at_keys path (plug v) with Some x => match count x with Some n => [n] | None => [] end | None => [] end.

(** ** Weights *)
Fixpoint strip (t : tnode) : tnode := match t with TNonNull t' => strip t' | _ => t end.
Definition listlike (t : tnode) : bool := match strip t with TList _ => true | _ => false end.
Fixpoint named (t : tnode) : string := match t with TNamed n => n | TList t' | TNonNull t' => named t' end.
Definition type_weight (t : string) : N :=
  match get t sc with
  | Some (DObject None _) | Some (DInterface _) | Some DUnion => 1
  | Some (DObject (Some w) _) | Some (DEnum (Some w)) | Some (DScalar (Some w)) => w
  | _ => 0
  end.
Definition declared (parent name : string) : option cfield :=
  match get parent sc with
  | Some (DObject _ fs) | Some (DInterface fs) => get name fs
  | _ => None
  end.
(** An input value: one for every input object, and the weight of every field given. *)
Fixpoint weigh (t : tnode) (v : value) {struct v} : N :=
  match v with
  | VArr l => match strip t with TList t' => total (map (weigh t') l) | _ => 0 end
  | VObj o =>
      match strip t with
      | TNamed n =>
          match get n sc with
          | Some (DInput fs) =>
              1 + (fix each (o : list (string * value)) : N :=
                     match o with
                     | [] => 0
                     | (k, x) :: o' =>
                         match get k fs with
                         | Some (w, t') => (match w with Some n => n | None => 0 end) + weigh t' x
                         | None => 0
                         end + each o'
                     end) o
          | _ => 0
          end
      | _ => 0
      end
  | _ => 0
  end.

Definition arguments (args : option (list (string * gvalue))) : list (string * gvalue) :=
  match args with Some a => a | None => [] end.
Definition argument_weight (d : cfield) (kv : string * gvalue) : N :=
  match get (fst kv) (cf_arg_costs d) with Some w => w | None => 0 end
  + match get (fst kv) (cf_arg_types d) with Some t => weigh t (plug (snd kv)) | None => 0 end.

(** ** List sizes *)
Definition sizes (paths : list (string * list string)) (args : list (string * gvalue)) : list N :=
  flat_map (fun p => match get (fst p) args with Some v => size_given v (snd p) | None => [] end) paths.
Definition promised (ls : list_size) (args : option (list (string * gvalue))) : N :=
  match ls_assumed ls, ls_slicing ls with
  | Some n, _ => n
  | None, None => dsize
  | None, Some paths =>
      match sizes paths (arguments args) with
      | [] => if ls_require_one ls then 0 else dsize
      | l => greatest l
      end
  end.
(** The sizes promised by the fields above: a path and how many items there are at its end. *)
Definition promises := list (list string * N).
Definition promised_here (name : string) (ps : promises) : option N :=
  match flat_map (fun p => match fst p with [x] => if String.eqb x name then [snd p] else [] | _ => [] end) ps with
  | n :: _ => Some n
  | [] => None
  end.
Definition promised_below (name : string) (ps : promises) : promises :=
  flat_map (fun p => match fst p with
                     | x :: y :: r => if String.eqb x name then [(y :: r, snd p)] else []
                     | _ => []
                     end) ps.
(** How often the selections below a field are charged. *)
Definition times (d : cfield) (name : string) (args : option (list (string * gvalue))) (ps : promises) : N :=
  match promised_here name ps with
  | Some n => n
  | None =>
      if listlike (cf_type d)
      then match cf_list_size d with
           | Some ls => match ls_sized ls with Some _ => dsize | None => promised ls args end
           | None => dsize
           end
      else 1
  end.
Definition promises_of (d : cfield) (args : option (list (string * gvalue))) : promises :=
  match cf_list_size d with
  | Some ls => match ls_sized ls with Some paths => map (fun p => (p, promised ls args)) paths | None => [] end
  | None => []
  end.

(** ** What selections cost *)
Fixpoint cost (parent : string) (ps : promises) (s : sel) {struct s} : N :=
  match s with
  | SField name _ args inc skip _ sub =>
      if negb (present inc skip) || String.eqb name "__typename" then 0
      else if String.eqb name "_entities"
      then N.max 1 dsize
           * (greatest (flat_map (fun x => match x with SFrag t _ _ _ => [type_weight t] | _ => [] end) sub)
              + total (map (cost parent []) sub))
      else match declared parent name with
           | None =>
               (match promised_here name ps with Some n => n | None => 1 end)
               * (type_weight parent + total (map (cost parent (promised_below name ps)) sub))
           | Some d =>
               (match cf_cost d with Some w => w | None => 0 end)
               + total (map (argument_weight d) (arguments args))
               + times d name args ps
                 * (type_weight (named (cf_type d))
                    + total (map (cost (named (cf_type d)) (promised_below name ps ++ promises_of d args)) sub))
           end
  | SFrag t _ _ sub => total (map (cost t ps) sub)
  | SSpread _ => 0
  end.
(** The input values given to the fields of selections, with their types. *)
Fixpoint inputs (parent : string) (s : sel) {struct s} : list (gvalue * tnode) :=
  match s with
  | SField name _ args _ _ _ sub =>
      match (if String.eqb name "_entities" then None else declared parent name) with
      | None => flat_map (inputs parent) sub
      | Some d =>
          flat_map (fun kv => match get (fst kv) (cf_arg_types d) with Some t => [(snd kv, t)] | None => [] end)
                   (arguments args)
          ++ flat_map (inputs (named (cf_type d))) sub
      end
  | SFrag t _ _ sub => flat_map (inputs t) sub
  | SSpread _ => []
  end.
(** Every field that requires one slicing argument has exactly one. *)
Fixpoint well_sliced (parent : string) (s : sel) {struct s} : bool :=
  match s with
  | SField name _ args _ _ _ sub =>
      match (if String.eqb name "_entities" then None else declared parent name) with
      | None => forallb (well_sliced parent) sub
      | Some d =>
          match cf_list_size d with
          | Some ls =>
              match ls_assumed ls, ls_slicing ls with
              | None, Some paths => negb (ls_require_one ls) || Nat.eqb (length (sizes paths (arguments args))) 1
              | _, _ => true
              end
          | None => true
          end && forallb (well_sliced (named (cf_type d))) sub
      end
  | SFrag t _ _ sub => forallb (well_sliced t) sub
  | SSpread _ => true
  end.
Definition operation_cost (kind : option opkind) (root : string) (sels : list sel) : N :=
  (match kind with Some KMutation => 10 | _ => 0 end) + total (map (cost root []) sels).
End S.

(** ** Plans *)
Section P.
Context (sc : cschema) (cfg : dc_config) (document : nat -> option opkind * list frag * list sel)
        (root_type : option opkind -> string) (vars : option (list (string * value))).
(** The fetches that the variables let into the bill. *)
Fixpoint billed (n : cnode) : list (string * nat) :=
  match n with
  | PFetch f | PSubscription f => [(f_service f, f_id f)]
  | PBatch b => [(b_service b, b_id b)]
  | PFlatten _ n' => billed n'
  | PSequence l | PParallel l => flat_map billed l
  | PCondition v i e =>
      if holds vars v then match i with Some n' => billed n' | None => [] end
      else match e with Some n' => billed n' | None => [] end
  | PDefer p ds =>
      (match p with Some n' => billed n' | None => [] end)
      ++ flat_map (fun d => match d with Some n' => billed n' | None => [] end) ds
  end.
Definition assumed_size (service : string) : N :=
  match dc_size_subgraphs cfg with
  | Some l => match get service l with Some n => n | None => match dc_size_all cfg with Some n => n | None => 0 end end
  | None => match dc_size_all cfg with Some n => n | None => 0 end
  end.
(** What the fetch [(service, id)] costs; what is sent in it is valid, and no input value alone is
    worth more than a [u64] can say. *)
Inductive costs : string * nat -> string * N -> Prop :=
| costs_intro service id kind frags sels sels' :
    document id = (kind, frags, sels) -> NoDup (map fr_name frags) ->
    forallb entities_inline sels = true -> Forall (fun f => forallb entities_inline (fr_sels f) = true) frags ->
    inlined frags sels sels' ->
    (forall v t, In (v, t) (flat_map (inputs sc (root_type kind)) sels') ->
                 weigh sc t (plug vars v) <= 18446744073709551615) ->
    costs (service, id) (service, operation_cost sc (assumed_size service) vars kind (root_type kind) sels').
Definition sliced (id : nat) : Prop :=
  forall kind frags sels sels', document id = (kind, frags, sels) -> inlined frags sels sels' ->
  forallb (well_sliced sc vars (root_type kind)) sels' = true.
Definition for_service (s : string) (bill : list (string * N)) : list N :=
  flat_map (fun c => if String.eqb (fst c) s then [snd c] else []) bill.
Definition limit (service : string) : option N :=
  match dc_budget_subgraphs cfg with
  | Some l => match get service l with Some n => Some n | None => dc_budget_all cfg end
  | None => dc_budget_all cfg
  end.
End P.

(** ** Larger lists *)
Definition number (v : value) : option N :=
  match v with VU64 n => Some n | VI64 z => Some (Z.to_N z) | _ => None end.
Inductive grows : value -> value -> Prop :=
| grows_same v : grows v v
| grows_number v w m n : number v = Some m -> number w = Some n -> m <= n -> grows v w
| grows_list l l' : grows_members l l' -> grows (VArr l) (VArr l')
| grows_object o o' : grows_fields o o' -> grows (VObj o) (VObj o')
with grows_members : list value -> list value -> Prop :=
| members_more l : grows_members [] l
| members_cons v w l l' : grows v w -> grows_members l l' -> grows_members (v :: l) (w :: l')
with grows_fields : list (string * value) -> list (string * value) -> Prop :=
| fields_nil : grows_fields [] []
| fields_cons k v w o o' : grows v w -> grows_fields o o' -> grows_fields ((k, v) :: o) ((k, w) :: o').
Definition grown (vars vars' : option (list (string * value))) : Prop :=
  match vars, vars' with
  | None, None => True
  | Some vs, Some vs' => grows_fields vs vs'
  | _, _ => False
  end.
