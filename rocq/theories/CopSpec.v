(** What the answer of a coprocessor says. *)
From Coq Require Import String List Bool NArith.
From Verif Require Import JsonModel CtxModel CopModel.
Import ListNotations.
Local Open Scope string_scope.
Local Open Scope list_scope.

(** The values of a header, in order *)
Definition values (n : string) (h : list (string * string)) : list string := map snd (filter (fun e => String.eqb (fst e) n) h).
(** The values that an answer gives for a header *)
Definition given_values (header_name : string -> option string) (l : list (string * list string)) (n : string) : list string :=
  flat_map (fun e => match header_name (fst e) with Some k => if String.eqb k n then snd e else [] | None => [] end) l.
(** Headers of one connection only *)
Definition hop (n : string) : Prop :=
  In n ["connection"; "keep-alive"; "proxy-authenticate"; "proxy-authorization"; "te"; "trailer"; "transfer-encoding"; "upgrade"; "proxy-connection"; "host"; "content-length"].
(** Headers that can be set *)
Definition sound (header_name : string -> option string) (header_value : string -> bool) (l : list (string * list string)) : Prop :=
  forall k vs, In (k, vs) l -> exists n, header_name k = Some n /\ (hop n \/ forall v, In v vs -> header_value v = true).
(** The body of an answer put in place of the one of the message *)
Definition body_put (read_gbody : string -> option gbody) (blank : string -> bool) (s : stage) (b : string) (m m' : message) : Prop :=
  match s with
  | RouterRequest | RouterResponse => m_params m' = m_params m /\ (b = "" -> m_body m' = None) /\ (b <> "" -> m_body m' = Some b)
  | GraphqlResponse => m_params m' = m_params m /\ m_body m' = Some b
  | GraphqlAnalysis => False
  | GraphqlRequest => m_body m' = m_body m /\ exists g, read_gbody b = Some g /\
      (forall q, g_query g = Some q -> blank q = false /\ p_query (m_params m') = Some q) /\ (g_query g = None -> p_query (m_params m') = p_query (m_params m)) /\
      (forall x, g_name g = Some x -> p_name (m_params m') = Some x) /\ (g_name g = None -> p_name (m_params m') = p_name (m_params m)) /\
      (forall x, g_variables g = Some x -> p_variables (m_params m') = x) /\ (g_variables g = None -> p_variables (m_params m') = p_variables (m_params m)) /\
      (forall x, g_extensions g = Some x -> p_extensions (m_params m') = Some x) /\ (g_extensions g = None -> p_extensions (m_params m') = p_extensions (m_params m))
  end.
