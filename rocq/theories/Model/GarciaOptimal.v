(** * garcia_optimal_partitioning/garcia_optimal_partitioning.py: how the partition tables were made

    The script that computed the tables of PartitionSchemes.cpp: a search for the cheapest way to divide a
    response into partitions, by dynamic programming over a graph.

    - Python exceptions are [Undef].
    - [networkx.DiGraph]: nodes in the order of insertion with their attribute "cost", and edges.
    - Costs are Python floats there and exact integers here: [unit] stands for the 4 of lines 77 and 81 and
      [big s] for the [4 * k * math.log2 (2 * latency * s)] of line 81, both in the same unit.  (With k = 1.7 and
      a latency that is a power of two, in fifths: [unit] = 20, [big s] = 34 * log2 (2 * latency * s).)
    - [math.log2], [math.ceil] and the divisions by powers of two are taken to be exact.
    - plot_graph (9-15), timing and printing (189-196) and the JSON files are not modelled. *)
From Verif.Model Require Import Base Partitioning.

(** No code of its own: a Python [for] loop whose body may raise. *)
Fixpoint foldM {St T} (f : St -> T -> res St) (l : list T) (s : St) : res St :=
  match l with [] => Ok s | x :: t => s <- f s x ;; foldM f t s end.

(** (n, s, q) and (stage, n, s, q) *)
(** (py:22-38, 103) *)
Definition elem : Type := nat * nat * nat.
(** (py:112, 120) *)
Definition key : Type := nat * elem.
(** Python [==] on tuples *)
Definition elem_eqb (a b : elem) : bool :=
  let '(n, s, q) := a in let '(n', s', q') := b in (n =? n') && (s =? s') && (q =? q').
(** Python [==] on tuples *)
Definition key_eqb (a b : key) : bool := (fst a =? fst b) && elem_eqb (snd a) (snd b).

(** py:18-19 *)
Definition next_power_of_2 (x : nat) : nat := if x =? 0 then 1 else 2 ^ Nat.log2_up x.

(** py:22-38 *)
Definition get_next_sequence (sequence : list elem) : res (list elem) :=
  let next := map (fun e : elem => let '(n, s, q) := e in (n + 1, s, q)) sequence in
  match rev sequence with
  | [] => Undef
  | (n, s, q) :: _ =>
      if q =? s then
        let next_sub_filter_size := next_power_of_2 (s + 1) in
        Ok (next ++ [(n + next_sub_filter_size, next_sub_filter_size, 1)])
      else Ok (next ++ [(n, s, q + 1)])
  end.

(** py:41-55 *)
Definition is_transition_viable (first second : elem) : bool :=
  let '(n2, s2, q2) := second in
  let '(n1, s1, q1) := first in
  let clearance_condition :=
    if q2 =? 1 then (Z.of_nat s2 <=? Z.of_nat n1 - Z.of_nat s2 + 1)%Z else true in
  let condition_1 := (s1 =? q1) && (q2 =? 1) && (s1 <=? s2) in
  let condition_2 := (s1 =? s2) && (q2 =? q1 + 1) in
  (condition_1 || condition_2) && clearance_condition.
(** py:58-64 *)
Definition get_viable_transitions (node : elem) (to : list elem) : list elem :=
  filter (is_transition_viable node) to.

(** a graph: nodes and their costs, edges *)
(** [networkx.DiGraph] (py:106-107) *)
Record graph : Type := { g_nodes : list (key * Z); g_edges : list (key * key) }.
(** [graph.nodes [k]["cost"]] (py:116, 126, 147) *)
Definition node_cost (g : graph) (k : key) : option Z :=
  option_map snd (find (fun n => key_eqb (fst n) k) (g_nodes g)).
(** [graph.has_node] (py:113, 125) *)
Definition has_node (g : graph) (k : key) : bool := match node_cost g k with Some _ => true | None => false end.
(** (py:133, 136) *)
Definition set_cost (g : graph) (k : key) (c : Z) : graph :=
  {| g_nodes := map (fun n => if key_eqb (fst n) k then (fst n, c) else n) (g_nodes g); g_edges := g_edges g |}.
(** [add_edge] to a node that is not in the graph also adds it; its cost is assigned right after (py:132-136). *)
Definition add_edge (g : graph) (a b : key) : graph := {| g_nodes := g_nodes g; g_edges := g_edges g ++ [(a, b)] |}.
(** (py:107, 135-136) *)
Definition add_node (g : graph) (k : key) (c : Z) : graph := {| g_nodes := g_nodes g ++ [(k, c)]; g_edges := g_edges g |}.
(** Python [==] on pairs *)
Definition edge_eqb (a b : key * key) : bool := key_eqb (fst a) (fst b) && key_eqb (snd a) (snd b).
(** [graph.in_edges] (py:86-98, 128-131) *)
Definition in_edges (g : graph) (k : key) : list (key * key) := filter (fun e => key_eqb (snd e) k) (g_edges g).
(** [graph.out_degree] (py:86-87) *)
Definition out_edges (g : graph) (k : key) : list (key * key) := filter (fun e => key_eqb (fst e) k) (g_edges g).
(** [graph.remove_edges_from] (py:139) *)
Definition remove_edges (g : graph) (l : list (key * key)) : graph :=
  {| g_nodes := g_nodes g; g_edges := filter (fun e => negb (existsb (edge_eqb e) l)) (g_edges g) |}.

(** py:86-87 *)
Definition get_graph_leafs (g : graph) : list key :=
  filter (fun k => negb (length (in_edges g k) =? 0) && (length (out_edges g k) =? 0)) (map fst (g_nodes g)).

(** py:90-98; the loop runs at most once per node *)
Fixpoint trace_from (fuel : nat) (g : graph) (trace : list key) (leaf : key) : res (list key) :=
  match in_edges g leaf with
  | [] => Ok trace
  | (p, _) :: _ =>
      match fuel with 0 => Diverge | S fuel => trace_from fuel g (trace ++ [p]) p end
  end.
(** py:90-98 *)
Definition trace_backward (g : graph) (leaf : key) : res (list key) :=
  t <- trace_from (length (g_nodes g)) g [leaf] leaf ;; Ok (rev t).

(** py:163-166: [defaultdict(int)], an ordered dictionary *)
Fixpoint count (k : nat) (d : list (nat * nat)) : list (nat * nat) :=
  match d with
  | [] => [(k, 1)]
  | (k', n) :: t => if k =? k' then (k', S n) :: t else (k', n) :: count k t
  end.
(** py:166, with exact division *)
Definition ceil_div (a b : nat) : nat := (a + (b - 1)) / b.

Section Script.
  Variable unit : Z.
  Variable big : nat -> Z.

  (** py:67-83 *)
  Definition get_transition_cost (first second : elem) : res Z :=
    let '(n1, s1, q1) := first in
    let '(n2, s2, q2) := second in
    if (s1 =? s2) && (q1 + 1 =? q2) then Ok 0%Z
    else if (s1 =? s2) && (q2 =? 1) then Ok unit
    else if (s1 <? s2) && (q2 =? 1) then Ok (big s2 + unit)%Z
    else Undef.

  (** py:119-139: one transition *)
  Definition relax (key1 : key) (accumulated_cost : Z) (stage : nat) (g : graph) (transition : elem) : res graph :=
    let key2 := (stage, transition) in
    transition_cost <- get_transition_cost (snd key1) transition ;;
    let total_cost := (transition_cost + accumulated_cost)%Z in
    Ok (match node_cost g key2 with
        | Some cost =>
            if (total_cost <? cost)%Z then
              let edges_to_remove := in_edges g key2 in
              remove_edges (set_cost (add_edge g key1 key2) key2 total_cost) edges_to_remove
            else g
        | None => add_edge (add_node g key2 total_cost) key1 key2
        end).
  (** py:111-139: one element of the sequence *)
  Definition visit (stage : nat) (next_sequence : list elem) (g : graph) (element : elem) : res graph :=
    let key1 := (stage - 1, element) in
    match node_cost g key1 with
    | None => Ok g
    | Some accumulated_cost =>
        foldM (relax key1 accumulated_cost stage) (get_viable_transitions element next_sequence) g
    end.
  (** py:109-141: one stage *)
  Definition stage_step (st : list elem * graph) (stage : nat) : res (list elem * graph) :=
    let '(sequence, g) := st in
    next_sequence <- get_next_sequence sequence ;;
    g <- foldM (visit stage next_sequence) sequence g ;;
    Ok (next_sequence, g).
  (** py:102-141 *)
  Definition build_graph (num_transitions : nat) : res graph :=
    ' (_, g) <- foldM stage_step (seq 1 (num_transitions - 1))
                  ([(1, 1, 1)], {| g_nodes := [((0, (1, 1, 1)), 0%Z)]; g_edges := [] |}) ;;
    Ok g.

  (** py:146-152: the loop over the leafs *)
  Definition choose (g : graph) (st : option Z * list key) (leaf : key) : res (option Z * list key) :=
    let '(best_cost, best_leafs) := st in
    match node_cost g leaf with
    | None => Undef
    | Some cost =>
        match best_cost with
        | None => Ok (Some cost, best_leafs ++ [leaf])
        | Some b =>
            if (cost <=? b)%Z then Ok (Some cost, (if (cost <? b)%Z then [] else best_leafs) ++ [leaf])
            else Ok (Some b, best_leafs)
        end
    end.
  (** py:162-167: partitions per size *)
  Definition normalise (latency : nat) (backtrace : list key) : list (nat * nat) :=
    map (fun e => (fst e, ceil_div (snd e) (fst e / latency)))
        (fold_left (fun d (node : key) => let '(_, (_, s, _)) := node in count (s * latency) d) backtrace []).
  (** py:101-169 *)
  Definition find_optimum (latency ir_size : nat) : res (list (list (nat * nat))) :=
    if latency =? 0 then Undef
    else
      let num_transitions := ir_size / latency in
      g <- build_graph num_transitions ;;
      ' (_, best_leafs) <- foldM (choose g) (get_graph_leafs g) (None, []) ;;
      backtraces <- mapM (trace_backward g) best_leafs ;;
      Ok (map (normalise latency) backtraces).
End Script.

(** convert_results.py:4-9 and 31-45: from a result to a scheme of PartitionSchemes.cpp *)
Definition to_scheme (latency ir_size : nat) (result : list (nat * nat)) : scheme :=
  {| ps_ir := Z.of_nat ir_size;
     ps_layout := map (fun e => {| pl_size := Z.of_nat (fst e / latency); pl_num := Z.of_nat (snd e) |}) result |}.
