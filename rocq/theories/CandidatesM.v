(** Model of the path-candidate generation: differt2d/scene.py
    [all_path_candidates] and the two graph classes of the external package
    [differt_core] it uses (their documented behaviour is assumed; the source of
    that package is not part of /repo). *)
From Coq Require Import List Bool Arith.
Import ListNotations.

(** [CompleteGraph(n).all_paths(n, n + 1, depth, include_from_and_to=False)] with
    [k = depth - 2]: sequences of [k] nodes of a complete graph (no self-loop),
    in lexicographic order; [prev] is the last visited graph node. *)
Fixpoint complete_paths (n : nat) (prev : option nat) (k : nat) : list (list nat) :=
  match k with
  | O => [[]]
  | S k' =>
      flat_map
        (fun i => map (cons i) (complete_paths n (Some i) k'))
        (filter
           (fun i => match prev with None => true | Some p => negb (Nat.eqb i p) end)
           (seq 0 n))
  end.

(** A directed graph: number of nodes and successors of each node. *)
Record digraph := mkdigraph { num_nodes : nat; succs : list (list nat) }.

Definition succ_of (G : digraph) (i : nat) : list nat := nth i (succs G) [].

(** [DiGraph.from_complete_graph(CompleteGraph(n))]. *)
Definition from_complete_graph (n : nat) : digraph :=
  mkdigraph n (map (fun i => filter (fun j => negb (Nat.eqb j i)) (seq 0 n)) (seq 0 n)).

(** [graph.insert_from_and_to_nodes()] (with the default [direct_path=True]):
    [from] is linked to every node and to [to], every node is linked to [to];
    returns the indices [(from, to)]. *)
Definition insert_from_and_to_nodes (G : digraph) : digraph * nat * nat :=
  let n := num_nodes G in
  let from := n in
  let to := S n in
  (mkdigraph (n + 2) (map (fun l => l ++ [to]) (succs G) ++ [seq 0 n ++ [to]; []]), from, to).

(** [graph.disconnect_nodes( *nodes)]: removes every edge from or to these nodes. *)
Definition disconnect_nodes (G : digraph) (nodes : list nat) : digraph :=
  mkdigraph (num_nodes G)
    (map (fun i => if existsb (Nat.eqb i) nodes then []
                   else filter (fun j => negb (existsb (Nat.eqb j) nodes)) (succ_of G i))
         (seq 0 (length (succs G)))).

(** [graph.all_paths(from, to, depth, include_from_and_to=False)] on a [DiGraph]:
    depth-first enumeration of the walks with exactly [k] nodes between [cur] and
    [to]. *)
Fixpoint digraph_paths (G : digraph) (to : nat) (cur : nat) (k : nat) : list (list nat) :=
  match k with
  | O => if existsb (Nat.eqb to) (succ_of G cur) then [[]] else []
  | S k' =>
      flat_map (fun i => map (cons i) (digraph_paths G to i k')) (succ_of G cur)
  end.

(** [range(a, b + 1)]. *)
Definition order_range (a b : nat) : list nat := seq a (S b - a).

(** differt2d/scene.py:122-175 [all_path_candidates] (non-negative orders). *)
Definition all_path_candidates (n min_order max_order : nat) (order : option nat)
    (filter_nodes : option (list nat)) : list (list nat) :=
  let paths_of : nat -> list (list nat) :=
    match filter_nodes with
    | None => complete_paths n None
    | Some nodes =>
        let '(G, from, to) := insert_from_and_to_nodes (from_complete_graph n) in
        let G := disconnect_nodes G nodes in
        digraph_paths G to from
    end in
  let '(min_order, max_order) :=
    match order with Some o => (o, o) | None => (min_order, max_order) end in
  flat_map paths_of (order_range min_order max_order).
