(** Model of the graphs of messages and sessions, rflx/graph.py.

    A graph is what pydotplus is told: the nodes and edges in the order in which they are
    added.  Simplifications: of the attributes only the colour of a node, its label and the
    degree that determines its size are kept, of an edge only the tooltip.  The names of
    fields and states are given as they are spelled, as in a graph upper and lower case
    differ.  The variables in the expressions of sessions are in lower case as in
    BindExpr.v. *)
From Coq Require Import String List ZArith Bool Ascii.
From Coq Require DecimalString.
From Verif Require Import Base Ident Expr BindExpr.
Import ListNotations.
Local Open Scope string_scope.
Local Open Scope list_scope.
Local Open Scope res_scope.

(** pydotplus: Node, Edge and Dot; fillcolor: "#ffffff", "#6f6f6f", "#009641" (the default,
    graph.py:67), "#7e8ab8" *)
Inductive fill := White | Grey | Green | Blue.
Record node := mkNode { n_name : string; n_fill : fill; n_label : option string; n_degree : option nat }.
Record edge := mkEdge { e_src : string; e_dst : string; e_tip : option string }.
Record dot := mkDot { d_name : string; d_nodes : list node; d_edges : list edge }.

(** equality of identifiers, identifier.py:34-39 *)
Definition same (a b : string) : bool := String.eqb (lower a) (lower b).
Definition nat_text (i : nat) : string := DecimalString.NilEmpty.string_of_uint (Nat.to_uint i).

(** ** messages *)

(** Link, message.py:49-56; None is UNDEFINED *)
Record glink := mkGLink { gl_source : string; gl_target : string; gl_condition : expr; gl_size : option expr; gl_first : option expr }.
(** of a message its name, fields, structure, and for each field the size of its type, if
    it is scalar *)
Record gmessage := mkGMessage { gm_name : string; gm_fields : list string; gm_structure : list glink; gm_size : string -> option Z }.

Section Message.
  (** str *)
  Context (str : expr -> string).

  (** field_size, message.py:289-299, as text *)
  Definition field_size_text (m : gmessage) (f : string) : res string :=
    if same f "Final" then Ok (str (ENum 0))
    else if existsb (same f) (gm_fields m) then
      Ok match gm_size m f with Some z => str (ENum z) | None => "__UNDEFINED__" end
    else Err "AssertionError".
  Definition newline : string := String (ascii_of_nat 10) "".
  (** the signs for true and for an undefined first bit in UTF-8, graph.py:34,38 *)
  Definition top_sign : string := String (ascii_of_nat 226) (String (ascii_of_nat 138) (String (ascii_of_nat 164) "")).
  Definition star_sign : string := String (ascii_of_nat 226) (String (ascii_of_nat 139) (String (ascii_of_nat 134) "")).
  Definition is_true (e : expr) : bool := match e with ETrue => true | _ => false end.
  (** __edge_label, graph.py:32-39 *)
  Definition edge_label (m : gmessage) (l : glink) : res string :=
    let cond := if is_true (gl_condition l) then top_sign else str (gl_condition l) in
    let sep1 := if is_true (gl_condition l) || match gl_size l with None => true | Some _ => false end then " " else newline in
    let* size := match gl_size l with Some e => Ok (str e) | None => field_size_text m (gl_target l) end in
    let sep2 := match gl_first l with None => " " | Some _ => newline end in
    let first := match gl_first l with Some e => str e | None => star_sign end in
    Ok ("(" ++ cond ++ "," ++ sep1 ++ size ++ "," ++ sep2 ++ first ++ ")")%string.
  Definition intermediate (i : nat) : string := ("intermediate_" ++ nat_text i)%string.
  (** the loop over the structure, graph.py:190-206 *)
  Fixpoint add_links (m : gmessage) (i : nat) (ls : list glink) (nodes : list node) (edges : list edge) : res (list node * list edge) :=
    match ls with
    | [] => Ok (nodes, edges)
    | l :: r =>
      let* label := edge_label m l in
      add_links m (S i) r (nodes ++ [mkNode (intermediate i) Green (Some label) None])
        (edges ++ [mkEdge (gl_source l) (intermediate i) None; mkEdge (intermediate i) (gl_target l) None])
    end.
  (** __get_message, graph.py:173-210 *)
  Definition get_message (m : gmessage) : res dot :=
    let structure := match gm_structure m with [] => [mkGLink "Initial" "Final" ETrue None None] | s => s end in
    let* r := add_links m 0 structure
                (mkNode "Initial" White (Some "") None :: map (fun f => mkNode f Green None None) (gm_fields m)) [] in
    Ok (mkDot (gm_name m) (fst r ++ [mkNode "Final" Grey (Some "") None]) (snd r)).
End Message.

(** ** sessions *)

(** Transition, session.py:20-32 *)
Record gtransition := mkGTransition { gt_target : string; gt_condition : bx }.
(** statement.py: Assignment 29-45, and statements with an attribute (Append, Extend, Reset,
    Read, Write) with their parameters 48-166 *)
Inductive gaction := GAssign (x : string) (e : bx) | GAttribute (x : string) (parameters : list bx).
Definition action_id (a : gaction) : string := match a with GAssign x _ | GAttribute x _ => x end.
(** State, session.py:46-98, with the names of its declarations *)
Record gstate := mkGState { gs_id : string; gs_transitions : list gtransition; gs_exception : option string;
  gs_actions : list gaction; gs_declarations : list string }.
(** AbstractSession, session.py:118-150 *)
Record gsession := mkGSession { gg_initial : string; gg_final : string; gg_states : list gstate }.

(** collections.Counter: update 1 for each element; a key keeps its place *)
Definition counter : Type := list (string * nat).
Fixpoint count_one (c : counter) (x : string) (k : nat) : counter :=
  match c with
  | [] => [(x, k)]
  | (y, d) :: t => if String.eqb y x then (y, d + k)%nat :: t else (y, d) :: count_one t x k
  end.
Definition count_list (c : counter) (l : list string) : counter := fold_left (fun c x => count_one c x 1) l c.
(** Counter.update with another Counter adds the counts *)
Definition count_counter (c d : counter) : counter := fold_left (fun c p => count_one c (fst p) (snd p)) d c.

Section Session.
  (** str, and equality of expressions for variables () *)
  Context (str : bx -> string) (eqb : bx -> bx -> bool) (fuel : nat).

  (** the arrow between blanks in UTF-8, graph.py:107 *)
  Definition arrow_sign : string :=
    String " " (String (ascii_of_nat 226) (String (ascii_of_nat 134) (String (ascii_of_nat 146) " "))).
  Definition is_btrue (e : bx) : bool := match e with BBool true => true | _ => false end.
  (** Graph.__init__, graph.py:21-26 *)
  Definition degree (s : gsession) (st : gstate) : nat :=
    (List.length (gs_transitions st)
     + List.length (filter (fun t => same (gt_target t) (gs_id st)) (flat_map gs_transitions (gg_states s))))%nat.
  (** the identifiers of variables () that are not declared in the state *)
  Definition global_variables (st : gstate) (e : bx) : res (list string) :=
    let* vs := variables eqb fuel e in
    Ok (filter (fun x => negb (existsb (String.eqb x) (gs_declarations st))) (map fst vs)).
  (** the loop over the transitions, graph.py:105-122 *)
  Fixpoint add_transitions (st : gstate) (i : nat) (ts : list gtransition) (edges : list edge) (read : counter) : res (list edge * counter) :=
    match ts with
    | [] => Ok (edges, read)
    | t :: r =>
      let label := if is_btrue (gt_condition t) then ""
                   else (gs_id st ++ arrow_sign ++ gt_target t ++ newline ++ newline ++ "[" ++ nat_text i ++ "] " ++ str (gt_condition t))%string in
      let* vs := global_variables st (gt_condition t) in
      add_transitions st (S i) r (edges ++ [mkEdge (gs_id st) (gt_target t) (Some label)]) (count_list read vs)
    end.
  (** the loop over the actions, graph.py:124-134 *)
  Fixpoint add_actions (st : gstate) (acts : list gaction) (read write : counter) : res (counter * counter) :=
    match acts with
    | [] => Ok (read, write)
    | a :: r =>
      let write' := if existsb (String.eqb (action_id a)) (gs_declarations st) then write else count_one write (action_id a) 1 in
      let* read' := match a with
                    | GAssign _ e => let* vs := global_variables st e in Ok (count_list read vs)
                    | GAttribute _ _ => Ok read
                    end in
      add_actions st r read' write'
    end.
  (** __add_state, graph.py:74-154 *)
  Definition add_state (s : gsession) (st : gstate) (d : dot) (vars : counter) : res (dot * counter) :=
    let n := mkNode (gs_id st)
               (if same (gs_id st) (gg_initial s) then White else if same (gs_id st) (gg_final s) then Grey else Green)
               None (Some (degree s st)) in
    let* r := add_transitions st 0 (gs_transitions st) (d_edges d) [] in
    let* rw := add_actions st (gs_actions st) (snd r) [] in
    let edges := fst r
      ++ map (fun p => mkEdge (fst p) (gs_id st) (Some (gs_id st ++ ": read " ++ fst p)%string)) (fst rw)
      ++ map (fun p => mkEdge (gs_id st) (fst p) (Some (gs_id st ++ ": write " ++ fst p)%string)) (snd rw) in
    Ok (mkDot (d_name d) (d_nodes d ++ [n]) edges, count_counter (count_counter vars (fst rw)) (snd rw)).
  Fixpoint add_states (s : gsession) (l : list gstate) (d : dot) (vars : counter) : res (dot * counter) :=
    match l with
    | [] => Ok (d, vars)
    | st :: r => let* p := add_state s st d vars in add_states s r (fst p) (snd p)
    end.
  (** __get_session, graph.py:156-171 *)
  Definition get_session (s : gsession) : res dot :=
    let* p := add_states s (gg_states s) (mkDot "Session" [] []) [] in
    Ok (mkDot (d_name (fst p)) (d_nodes (fst p) ++ map (fun v => mkNode (fst v) Blue None (Some (snd v))) (snd p)) (d_edges (fst p))).
End Session.
