(** What the representation of an entity should be, on trees. *)
From Coq Require Import String List NArith ZArith Bool.
From Verif Require Import StrOrd JsonModel Ast TraverseModel RequiresModel.
Import ListNotations.
Local Open Scope string_scope.

(** What one applicable selection contributes: a field of the representation ([None]: its value
    has nothing to send), or the request for the bare type name. *)
Inductive part := PField (key : string) (v : option value) | PBare.

(** The members of the representation of an object of (known) type [tn]. *)
Definition members (tn : option string) (ps : list part) : list (string * value) :=
  match ps with
  | [] => []
  | _ => (match tn with Some t => [("__typename", VStr t)] | None => [] end
          ++ flat_map (fun p => match p with PField k (Some v) => [(k, v)] | _ => [] end) ps)%list
  end.
Definition assemble (tn : option string) (ps : list part) : option value :=
  match members tn ps with [] => None | ms => Some (VObj ms) end.

Fixpoint somes {A} (l : list (option A)) : list A :=
  match l with [] => [] | Some x :: l' => x :: somes l' | None :: l' => somes l' end.

(** The value to send for [v]; [obj] gives the parts of an object, [whole] means the value is
    sent as it is. *)
Definition rep_with (whole : bool) (obj : list (string * value) -> list part) :=
  fix rv (v : value) : option value :=
    match v with
    | VNull => None
    | VArr l => Some (VArr (somes (map rv l)))
    | VObj o => if whole then Some v else assemble (typename_of o) (obj o)
    | _ => Some v
    end.

Section S.
  Variable pt : ptypes.

  (** [... on c] applies to an object: its type is unknown, a subtype or a supertype of [c]. *)
  Definition related (o : list (string * value)) (c : string) : bool :=
    match typename_of o with
    | None => true
    | Some t => satisfies pt t c || satisfies pt c t
    end.

  Definition parts_of (step : sel -> list part) (sels : list sel) (o : list (string * value)) : list part :=
    match only_typename sels, typename_of o with
    | true, Some _ => [PBare]
    | _, _ => flat_map step sels
    end.

  (** The contribution of one selection to the representation of [o]. *)
  Fixpoint parts (x : sel) (o : list (string * value)) {struct x} : list part :=
    match x with
    | SField n a _ _ _ _ sub =>
        let key := ident n a in
        if String.eqb key "__typename" then []
        else match (match get n o with Some v => Some v | None => get key o end) with
             | None => []
             | Some VNull => [PField key (Some VNull)]
             | Some v => [PField key (rep_with (is_nil sub) (fun o' => parts_of (fun y => parts y o') sub o') v)]
             end
    | SFrag c _ _ sub => if related o c then parts_of (fun y => parts y o) sub o else []
    | SSpread _ => []
    end.
  Definition obj_parts (sels : list sel) (o : list (string * value)) : list part :=
    parts_of (fun y => parts y o) sels o.

  (** The representation of [v] for the required selections. *)
  Definition rep (sels : list sel) : value -> option value := rep_with (is_nil sels) (obj_parts sels).

  (** A bare type name is requested before anything else of its object. *)
  Definition bare_first (ps : list part) : bool :=
    forallb (fun p => match p with PBare => false | _ => true end) (tl ps).
  Definition tidy_with (whole : bool) (obj : list (string * value) -> bool) :=
    fix tv (v : value) : bool :=
      match v with
      | VArr l => forallb tv l
      | VObj o => whole || obj o
      | _ => true
      end.
  Fixpoint tidy_item (x : sel) (o : list (string * value)) {struct x} : bool :=
    match x with
    | SField n a _ _ _ _ sub =>
        match (match get n o with Some v => Some v | None => get (ident n a) o end) with
        | None => true
        | Some v => tidy_with (is_nil sub)
                      (fun o' => bare_first (parts_of (fun y => parts y o') sub o')
                                 && forallb (fun y => tidy_item y o') sub) v
        end
    | SFrag _ _ _ sub => forallb (fun y => tidy_item y o) sub
    | SSpread _ => true
    end.
  Definition tidy (sels : list sel) : value -> bool :=
    tidy_with (is_nil sels) (fun o => bare_first (obj_parts sels o) && forallb (fun y => tidy_item y o) sels).
End S.

(** Selections that never ask for a bare type name next to anything else. *)
Fixpoint no_bare (x : sel) : bool :=
  match x with
  | SField _ _ _ _ _ _ sub => forallb no_bare sub
  | SFrag _ _ _ sub => negb (only_typename sub) && forallb no_bare sub
  | SSpread _ => true
  end.

(** ** What the representation contains *)
Section Contains.
  Variable pt : ptypes.

  (** [sels] requires the field [n] under the response key [k] with the selections [sub] of an
      object [o], directly or in fragments that apply to it. *)
  Inductive required (o : list (string * value)) : list sel -> string -> string -> list sel -> Prop :=
  | Req_field : forall sels n a args inc skip om sub, In (SField n a args inc skip om sub) sels ->
      ident n a <> "__typename" -> required o sels n (ident n a) sub
  | Req_frag : forall sels c inc skip fs n k sub, In (SFrag c inc skip fs) sels -> related pt o c = true ->
      required o fs n k sub -> required o sels n k sub.

  (** The data of a required field: stored under its name or under its response key. *)
  Definition stored (o : list (string * value)) (n k : string) : option value :=
    match get n o with Some v => Some v | None => get k o end.

  (** What is sent for the data [v] of a field. *)
  Definition field_value (sub : list sel) (v : value) : option value :=
    if is_null v then Some VNull else rep pt sub v.

  (** A bare type name is asked for in a fragment that applies. *)
  Inductive bare (o : list (string * value)) : list sel -> Prop :=
  | Bare_here : forall sels t, only_typename sels = true -> typename_of o = Some t -> bare o sels
  | Bare_frag : forall sels c inc skip fs, In (SFrag c inc skip fs) sels -> related pt o c = true ->
      bare o fs -> bare o sels.
End Contains.

(** ** Entities that the hash can tell apart *)
(** UTF-8 text never contains the byte 0xff. *)
Definition no_ff (s : string) : bool := forallb (fun c => negb (N.eqb (Ascii.N_of_ascii c) 255)) (list_ascii_of_string s).

(** The same kinds of values in the same places, with values in the range of their Rust types. *)
Fixpoint same_kind (a b : value) {struct a} : Prop :=
  match a, b with
  | VNull, VNull => True
  | VF64 x, VF64 y => (x < 2 ^ 64 /\ y < 2 ^ 64)%N
  | VU64 x, VU64 y => (x < 2 ^ 64 /\ y < 2 ^ 64)%N
  | VI64 x, VI64 y => (- 2 ^ 63 <= x < 2 ^ 63 /\ - 2 ^ 63 <= y < 2 ^ 63)%Z
  | VBool _, VBool _ => True
  | VStr x, VStr y => no_ff x = true /\ no_ff y = true
  | VArr l1, VArr l2 =>
      (fix go l1 l2 : Prop :=
         match l1, l2 with
         | [], [] => True
         | x :: r1, y :: r2 => same_kind x y /\ go r1 r2
         | _, _ => False
         end) l1 l2
  | VObj o1, VObj o2 =>
      (fix go (o1 o2 : list (string * value)) : Prop :=
         match o1, o2 with
         | [], [] => True
         | (k1, x) :: r1, (k2, y) :: r2 => k1 = k2 /\ same_kind x y /\ go r1 r2
         | _, _ => False
         end) o1 o2
  | _, _ => False
  end.

Definition similar_with (obj : list (string * value) -> list (string * value) -> Prop) :=
  fix sv (a b : value) {struct a} : Prop :=
    match a, b with
    | VArr l1, VArr l2 =>
        (fix go l1 l2 : Prop :=
           match l1, l2 with
           | [], [] => True
           | x :: r1, y :: r2 => sv x y /\ go r1 r2
           | _, _ => False
           end) l1 l2
    | VObj o1, VObj o2 => typename_of o1 = typename_of o2 /\ obj o1 o2
    | VArr _, _ | _, VArr _ | VObj _, _ | _, VObj _ => False
    | _, _ => same_kind a b
    end.

(** The hash and the representation agree on whether [... on c] applies: not so for an object that
    calls itself by the name of an interface. *)
Definition decided (pt : ptypes) (o : list (string * value)) (c : string) : Prop :=
  forall t, typename_of o = Some t -> satisfies pt c t = true -> satisfies pt t c = true.

(** Wherever the selections look, the two objects have the same kinds of values, lists of the
    same length and nested objects of the same type. *)
Fixpoint similar (pt : ptypes) (x : sel) (o1 o2 : list (string * value)) {struct x} : Prop :=
  match x with
  | SField n a _ _ _ _ sub =>
      match get n o1, get n o2 with
      | None, None => get (ident n a) o1 = None /\ get (ident n a) o2 = None
      | Some v1, Some v2 =>
          match sub with
          | [] => same_kind v1 v2
          | _ => similar_with (fun p q => fold_right (fun y P => similar pt y p q /\ P) True sub) v1 v2
          end
      | _, _ => False
      end
  | SFrag c _ _ sub => decided pt o1 c /\ fold_right (fun y P => similar pt y o1 o2 /\ P) True sub
  | SSpread _ => True
  end.
Definition all_similar (pt : ptypes) (sels : list sel) (o1 o2 : list (string * value)) : Prop :=
  fold_right (fun y P => similar pt y o1 o2 /\ P) True sels.

(** The requirement of one entity type: a fragment that selects [__typename] first. *)
Definition by_type (x : sel) : bool :=
  match x with
  | SFrag _ _ _ (SField n _ _ _ _ _ [] :: _) => String.eqb n "__typename"
  | _ => false
  end.

(** No null among the items of a list (of lists). *)
Fixpoint dense (v : value) : bool :=
  match v with
  | VArr l => forallb (fun x => negb (is_null x) && dense x) l
  | _ => true
  end.
