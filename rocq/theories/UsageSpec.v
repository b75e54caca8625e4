(** What is to be reported. *)
From Coq Require Import String List NArith ZArith Bool Arith.
From Verif Require Import UsageModel.
Import ListNotations.
Local Open Scope string_scope.
Local Open Scope list_scope.

(** A window over the distinct keys that came: the newest first, at most [c] of them, the oldest forgotten *)
Fixpoint recent (c : nat) (h : list N) : list N :=   (* [h]: the newest first *)
  match h with
  | [] => []
  | k :: h' => if in_dec N.eq_dec k (recent c h') then recent c h' else firstn c (k :: recent c h')
  end.
Definition fresh (c : nat) (h : list N) (k : N) : Prop := ~ In k (recent c h).

(** Which reports are kept, read off the actions *)
Section Kept.
  Variable hash : list string -> N.
  Variable c : config.
  Definition key (x : exec) : N :=
    match c_once c with Some (ks, _) => hash (map (key_value x) ks) | None => 0%N end.
  Definition window : nat := match c_once c with Some (_, n) => Nat.max n 1 | None => 0 end.
  Inductive excluded (x : exec) : result bool -> Prop :=
  | by_name l n e : c_exclude c = Some (Names l) -> x_name x = Some n -> In n l -> excluded x e
  | by_expression : c_exclude c = Some Expression -> excluded x (Ok true)
  | by_failure m : c_exclude c = Some Expression -> excluded x (Err m).
  (** [considered l h]: [h] are the keys of the reports of [l] that were not excluded, the newest first *)
  Inductive considered : list action -> list N -> Prop :=
  | cons_nil : considered [] []
  | cons_flush l h ev n : considered l h -> considered (l ++ [Flush ev n]) h
  | cons_out l h x e b ev n : considered l h -> excluded x e -> considered (l ++ [Add x e b ev n]) h
  | cons_in l h x e b ev n : considered l h -> ~ excluded x e -> considered (l ++ [Add x e b ev n]) (key x :: h).
  (** Sampled: the first of its key, or by rate *)
  Definition sampled (h : list N) (x : exec) (coin : bool) : Prop :=
    (c_once c <> None /\ fresh window h (key x)) \/ (1000000 <= c_rate c)%Z \/ ((0 < c_rate c)%Z /\ coin = true).
  Inductive kept : list action -> list exec -> Prop :=
  | kept_nil : kept [] []
  | kept_flush l k ev n : kept l k -> kept (l ++ [Flush ev n]) k
  | kept_out l k h x e b ev n : kept l k -> considered l h -> excluded x e \/ ~ sampled h x b -> kept (l ++ [Add x e b ev n]) k
  | kept_in l k h x e b ev n : kept l k -> considered l h -> ~ excluded x e -> sampled h x b -> kept (l ++ [Add x e b ev n]) (k ++ [x]).
End Kept.

(** A report tells of reports [l], where [f] says what each of them is worth *)
Section Tells.
  Variable f : exec -> option processed.
  Definition told (l : list exec) : list (exec * processed) := flat_map (fun x => match f x with Some p => [(x, p)] | None => [] end) l.
  Definition entry_tells (e : entry) (xp : exec * processed) : Prop :=
    let '(x, p) := xp in
    e_key e = p_hash p /\ e_time e = x_time x /\ e_ok e = x_ok x /\ e_nanos e = N.min (x_nanos x) 18446744073709551615 /\
    e_errors e = x_errors x /\ e_document e = x_document x /\
    (e_client e = None <-> (x_client x = None \/ x_client x = Some "") /\ (x_version x = None \/ x_version x = Some "")) /\
    (forall n v, e_client e = Some (n, v) -> (n = "" /\ x_client x = None \/ x_client x = Some n) /\ (v = "" /\ x_version x = None \/ x_version x = Some v)).
  Record tells (r : report) (l : list exec) : Prop := mktells {
    t_entries : Forall2 entry_tells (r_entries r) (told l);
    t_size : r_size r = N.of_nat (length (told l));
    t_keys : NoDup (map fst (r_map r));
    t_used : forall k, In k (map fst (r_map r)) <-> exists x p, In (x, p) (told l) /\ p_hash p = k;
    (** the record of an operation is that of the first report of it *)
    t_first : forall k i, In (k, i) (r_map r) -> exists before x p after, told l = before ++ (x, p) :: after /\ p_hash p = k /\
      Forall (fun y => p_hash (snd y) <> k) before /\ i_operation i = p_operation p /\ i_fields i = p_coordinates p /\
      (i_name i = None <-> x_name x = None \/ x_name x = Some "") /\ (forall n, i_name i = Some n -> x_name x = Some n) }.
End Tells.

(** What a report is worth under schema [s]: nothing if the operation cannot be processed or is an introspection *)
Definition worth (transform : string -> string -> result (option processed)) (s : string) (x : exec) : option processed :=
  match transform (x_body x) s with Ok (Some p) => Some p | _ => None end.
(** A batch is posted as it should be, or not at all if there is nothing to tell *)
Definition right (transform : string -> string -> result (option processed)) (s : string) (b : list exec * fate) : Prop :=
  match snd b with
  | Posted r _ => tells (worth transform s) r (fst b) /\ told (worth transform s) (fst b) <> []
  | Nothing r => told (worth transform s) (fst b) = []
  | Crashed => True
  end.
Definition of_schema (s : string) (m : action) : Prop := match m with Add x _ _ _ _ => x_schema x = s | Flush _ _ => True end.
(** Nothing is evicted between finding and reading *)
Definition calm (m : action) : Prop := match m with Add _ _ _ ev _ | Flush ev _ => Forall (fun e : evictions => snd e = []) ev end.
