(** Which subgraphs resolve a field, and when the fields of an interface are to be resolved from one path. *)
From Coq Require Import String List NArith Bool Arith.
From Verif Require Import Ast QplanModel BestModel OverrideModel SafeModel PathModel OpwalkModel.
Import ListNotations.
Local Open Scope list_scope.

(** A subgraph resolves a field: there are no [@join__field]s and it has the type, or one names it that is neither
    external, nor overridden, nor about to be. *)
Definition resolves_field (joins : list join) (d : sdef) (id : string) : Prop :=
  (joins = [] /\ In id (sd_graphs d)) \/ exists j, In j joins /\ j_graph j = Some id /\ j_external j = false /\ j_overridden j = false /\ j_label j = None.
(** A path that ends with a field *)
Definition by_field (g : pgraph) (p : opath) (e : gedge) : Prop :=
  (exists segs x, o_segs p = segs ++ [x] /\ nth_error (edges g) (sg_edge x) = Some e) /\ exists n r m, g_kind e = FieldMove n r m.
Definition fragment (x : sel) : Prop := exists t i k l, x = SFrag t i k l.
(** The first of the paths that ends with a field leads from a type to an interface, several subgraphs resolve the
    field, and several fragments are selected. *)
Definition shared_interface (g : pgraph) (defs : list (string * sdef)) (name : string) (sub : list sel) (next : list opath) (output : sdef) : Prop :=
  exists pre p post e h t parent joins, next = pre ++ p :: post /\ by_field g p e /\ (forall q x, In q pre -> ~ by_field g q x) /\
    nth_error (nodes g) (g_head e) = Some h /\ nth_error (nodes g) (g_tail e) = Some t /\
    lookup (n_name h) defs = Some parent /\ lookup name (sd_fields parent) = Some joins /\ lookup (n_name t) defs = Some output /\
    sd_interface output = true /\ (exists a b, a <> b /\ resolves_field joins parent a /\ resolves_field joins parent b) /\
    exists l1 x l2 y l3, sub = l1 ++ x :: l2 ++ y :: l3 /\ fragment x /\ fragment y.
