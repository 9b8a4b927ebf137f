(* M_GraphIO.v - model of the METIS reader and the writers of lib/io/graph_io.h on bytes.  A file is the list of its bytes
   (as numbers).  A reader that exits on its own is Some None, an access out of range, a read of an uninitialised value or
   a loop without end is None.  Opening files and the messages are not modelled; neither are signs in the header line
   ('-' and '+' end a number like any other character) and the memory reserved for the edges. *)
From Verif Require Export M_Graph.

(* std::getline until it fails: the lines of a stream *)
Fixpoint split_lines (s : list nat) : list (list nat) :=
  match s with
  | [] => []
  | c :: s' => if c =? 10 then [] :: split_lines s'
               else match split_lines s' with [] => [[c]] | l :: ls => (c :: l) :: ls end
  end.

(* graph_io.h:375-376 the characters '0' to '9' *)
Definition is_digit (c : nat) : bool := (48 <=? c) && (c <=? 57).
(* graph_io.h:373-382 fast_atoi from the rest s of the string at position p; the character behind the last one is 0 *)
Fixpoint atoi_go (s : list nat) (x : N) (p : nat) : N * nat :=
  match s with
  | [] => (x, S p)
  | c :: s' => if is_digit c then atoi_go s' ((x * 10 + N.of_nat (c - 48)) mod 2 ^ 64)%N (S p) else (x, S p)
  end.
(* graph_io.h:373-382 fast_atoi: the value and the new position; reading behind the terminating 0 is out of range *)
Definition fast_atoi (line : list nat) (p : nat) : option (N * nat) :=
  if length line <? p then None else Some (atoi_go (skipn p line) 0%N p).

(* graph_io.h:188-190 remove leading whitespaces; returns the position *)
Fixpoint skip_spaces (s : list nat) (p : nat) : nat :=
  match s with c :: s' => if c =? 32 then skip_spaces s' (S p) else p | [] => p end.

(* graph_io.h:192-211 the edges of one line; target is a NodeID (32 bits) *)
Fixpoint read_edges (fuel : nat) (line : list nat) (p node : nat) (rw : bool) : option (list bop) :=
  match fuel with
  | 0 => None
  | S fuel' =>
      if p <? length line then
        match fast_atoi line p with
        | None => None
        | Some (x, p1) =>
            let target := N.to_nat (x mod 2 ^ 32)%N in
            if target =? 0 then Some []
            else if target - 1 =? node then read_edges fuel' line p1 node rw
            else if rw then
              match fast_atoi line p1 with
              | None => None
              | Some (w, p2) => option_map (cons (BEdge node (target - 1) w)) (read_edges fuel' line p2 node rw)
              end
            else option_map (cons (BEdge node (target - 1) 1%N)) (read_edges fuel' line p1 node rw)
        end
      else Some []
  end.

(* graph_io.h:161-163, 178-180 a comment line *)
Definition is_comment (line : list nat) : bool := match line with c :: _ => c =? 37 | [] => false end.

(* graph_io.h:177-217 the lines after the header; n is the size given in the header: setPartitionIndex has n + 1 entries.
   Returns node_counter and the construction calls *)
Fixpoint read_body (ls : list (list nat)) (node n : nat) (rw : bool) : option (nat * list bop) :=
  match ls with
  | [] => Some (node, [])
  | l :: ls' =>
      if is_comment l then read_body ls' node n rw
      else if n <? node then None
      else
        match read_edges (S (length l)) l (skip_spaces l 0) node rw with
        | None => None
        | Some es =>
            match read_body ls' (S node) n rw with
            | None => None
            | Some (k, ops) => Some (k, BNode :: es ++ ops)
            end
        end
  end.

(* graph_io.h:151-155 the header line: comments are skipped.  If there is nothing but comments, either the line without
   line feed is found again and again, or an empty line is taken and the numbers are not initialised: None *)
Fixpoint header_line (ls : list (list nat)) : option (list nat * list (list nat)) :=
  match ls with
  | [] => None
  | l :: ls' => if is_comment l then header_line ls' else Some (l, ls')
  end.

(* the characters skipped by operator>> (isspace) *)
Definition is_space (c : nat) : bool := (c =? 32) || ((9 <=? c) && (c <=? 13)).
(* operator>>: skipping *)
Fixpoint skip_ws (s : list nat) : list nat :=
  match s with c :: s' => if is_space c then skip_ws s' else s | [] => [] end.
(* operator>>: the digits of a number and the rest *)
Fixpoint take_digits (s : list nat) (x : N) (k : nat) : N * nat * list nat :=
  match s with
  | c :: s' => if is_digit c then take_digits s' (x * 10 + N.of_nat (c - 48))%N (S k) else (x, k, s)
  | [] => (x, k, [])
  end.
(* operator>> of a stringstream into an unsigned number up to max: the value stored (None: the variable is left alone) and
   the stream (None: it has reached its end or has failed) *)
Definition extract (max : N) (s : option (list nat)) : option N * option (list nat) :=
  match s with
  | None => (None, None)
  | Some s0 =>
      match skip_ws s0 with
      | [] => (None, None)
      | s1 =>
          match take_digits s1 0%N 0 with
          | (_, 0, _) => (Some 0%N, None)
          | (x, _, rest) => if (max <? x)%N then (Some max, None) else (Some x, match rest with [] => None | _ => Some rest end)
          end
      end
  end.

(* graph_io.h:157-169 number of nodes, number of edges, read_ew; u64max in the type uint64_t, ew is an int *)
Definition parse_header (l : list nat) : option (N * N * bool) :=
  let '(a, s1) := extract u64max (Some l) in
  let '(b, s2) := extract u64max s1 in
  let '(c, _) := extract 2147483647 s2 in
  match a, b with
  | Some n, Some m => let ew := match c with Some e => e | None => 0%N end in Some (n, ((m * 2) mod 2 ^ 64)%N, (ew =? 1)%N || (ew =? 11)%N)
  | _, _ => None
  end.

(* graph_io.h:136-235 readGraphWeighted<graph_access>; start_construction takes a NodeID *)
Definition read_graph (bytes : list nat) : option (option csr) :=
  match header_line (split_lines bytes) with
  | None => None
  | Some (h, ls) =>
      match parse_header h with
      | None => None
      | Some (nn, m, rw) =>
          let n := N.to_nat (nn mod 2 ^ 32) in
          match read_body ls 0 n rw with
          | None => None
          | Some (k, ops) =>
              match build_ops (start_construction n 0) ops with
              | None => None
              | Some g => if k =? n then option_map (fun g' => Some (compute_degrees g')) (finish_construction g) else Some None
              end
          end
      end
  end.

(* operator<< of an unsigned number: its decimal digits *)
Fixpoint dec_go (fuel : nat) (x : N) : list nat :=
  match fuel with
  | 0 => []
  | S fuel' => (if (x <? 10)%N then [] else dec_go fuel' (x / 10)%N) ++ [48 + N.to_nat (x mod 10)]
  end.
(* operator<< of an unsigned number *)
Definition dec (x : N) : list nat := dec_go (S (N.size_nat x)) x.

(* graph_io.h:242-247 the line of a node; getEdgeTarget(e) + 1 is a NodeID *)
Definition write_row (weighted : bool) (es : list (nat * N)) : list nat :=
  flat_map (fun e => dec ((N.of_nat (fst e) + 1) mod 2 ^ 32) ++ 32 :: (if weighted then dec (snd e) ++ [32] else [])) es ++ [10].
(* graph_io.h:237-252 writeGraphWeighted, 254-270 writeGraph *)
Definition write_graph (weighted : bool) (g : csr) : list nat :=
  dec (N.of_nat (num_nodes g)) ++ 32 :: dec (N.of_nat (Nat.div2 (num_edges g))) ++ [32; if weighted then 49 else 48; 10] ++
  flat_map (fun v => write_row weighted (edges_of g v)) (seq 0 (num_nodes g)).
