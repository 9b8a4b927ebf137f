(* M_PRTests.v - model of lib/coarsening/contraction_tests.h prTests12 and prTests34 (sequential,
   static graphs).  Edges of n are numbered by their position in the edge list of n.  NodeWeight and
   NodeID are 32 bits wide, so prTests12 truncates the degrees it compares with. *)
From Verif Require Export M_CutHelpers.

(* common/definitions.h:31-35 NodeID, NodeWeight: conversion of a 64-bit value to 32 bits *)
Definition trunc32 (x : N) : N := (x mod 4294967296)%N.

(* contraction_tests.h:63-90: union-find and contracted flags; None = error *)
Definition prst := option (uf * list bool).

(* uf.Union(a, b) and marking both a' and b' as contracted *)
Definition pr_union (s : uf * list bool) (a b a' b' : nat) : prst :=
  match uf_union (fst s) a b with
  | Some (u', _) => Some (u', upd (upd (snd s) a' true) b' true)
  | None => None
  end.

(* contraction_tests.h:66-92 one edge (t, w) of n *)
Definition pr12_edge (all : bool) (limit : N) (G : graph) (n : nat) (s : uf * list bool) (e : nat * N) : prst :=
  let '(t, w) := e in
  let nw := trunc32 (deg G n) in
  let tw := trunc32 (deg G t) in
  match uf_find (fst s) t with
  | None => None
  | Some (u1, target) =>
      match uf_find u1 n with
      | None => None
      | Some (u2, source) =>
          match (if (limit <=? w)%N then pr_union (u2, snd s) source target n t else Some (u2, snd s)) with
          | None => None
          | Some s3 =>
              if negb all || ((limit <=? nw)%N && (limit <=? tw)%N) then
                match (if (nw <? 2 * w)%N && (negb all || negb (nth n (snd s3) false))
                       then pr_union s3 n t n t else Some s3) with
                | None => None
                | Some s4 =>
                    if (tw <? 2 * w)%N && (negb all || negb (nth t (snd s4) false))
                    then pr_union s4 n t n t else Some s4
                end
              else Some s3
          end
      end
  end.

(* contraction_tests.h:65-93 the edges of n *)
Fixpoint pr12_edges (all : bool) (limit : N) (G : graph) (n : nat) (s : uf * list bool) (es : list (nat * N)) : prst :=
  match es with
  | [] => Some s
  | e :: es' => match pr12_edge all limit G n s e with Some s' => pr12_edges all limit G n s' es' | None => None end
  end.

(* contraction_tests.h:63-94 the nodes *)
Fixpoint pr12_nodes (all : bool) (limit : N) (G : graph) (s : uf * list bool) (ns : list nat) : prst :=
  match ns with
  | [] => Some s
  | n :: ns' => match pr12_edges all limit G n s (nth n G []) with Some s' => pr12_nodes all limit G s' ns' | None => None end
  end.

(* contraction_tests.h:57-96 prTests12 *)
Definition pr_tests12 (all : bool) (G : graph) (limit : N) : option uf :=
  match pr12_nodes all limit G (uf_init (length G), repeat false (length G)) (seq 0 (length G)) with
  | Some (u, _) => Some u
  | None => None
  end.

(* contraction_tests.h:103-108 state of prTests34; marked: (node, edge position), None = UNDEFINED *)
Record p34 := mk_p34 { p_uf : uf; p_mark : list (option (nat * nat)); p_fin : list bool; p_con : list bool }.

(* contraction_tests.h:116-121 marking the later neighbours of n *)
Fixpoint mark_edges (n : nat) (pos : nat) (es : list (nat * N)) (mk : list (option (nat * nat))) : list (option (nat * nat)) :=
  match es with
  | [] => mk
  | (t, _) :: es' => mark_edges n (S pos) es' (if n <? t then upd mk t (Some (n, pos)) else mk)
  end.

(* contraction_tests.h:137-171 one edge e2 = (t2, w2) of tgt; sum = wgt_sum *)
Definition tri_edge (all : bool) (limit : N) (G : graph) (n tgt : nat) (w1 : N) (st : p34 * N) (e2 : nat * N)
  : option (p34 * N) :=
  let '(s, sum) := st in
  let '(t2, w2) := e2 in
  match nth t2 (p_mark s) None with
  | None => Some st
  | Some (m, e) =>
      if negb (m =? n) then Some st
      else
        let w3 := snd (nth e (nth n G []) (0, 0%N)) in
        let dn := deg G n in
        let dt := deg G tgt in
        let sum' := (sum + N.min w2 w3)%N in
        let one := negb all && (dn <=? 2 * (w1 + w3))%N && (dt <=? 2 * (w1 + w2))%N in
        let two := all && (dn <? 2 * (w1 + w3))%N && (dt <? 2 * (w1 + w2))%N && (limit <=? dn)%N && (limit <=? dt)%N in
        if (one || two) && negb (nth n (p_con s) false) && negb (nth tgt (p_con s) false) then
          match uf_union (p_uf s) n tgt with
          | Some (u', _) => Some (mk_p34 u' (p_mark s) (p_fin s) (upd (upd (p_con s) n true) tgt true), sum')
          | None => None
          end
        else Some (s, sum')
  end.

(* contraction_tests.h:137-171 the edges of tgt *)
Fixpoint tri_edges (all : bool) (limit : N) (G : graph) (n tgt : nat) (w1 : N) (st : p34 * N) (es : list (nat * N))
  : option (p34 * N) :=
  match es with
  | [] => Some st
  | e :: es' => match tri_edge all limit G n tgt w1 st e with
                | Some st' => tri_edges all limit G n tgt w1 st' es' | None => None end
  end.

(* contraction_tests.h:124-181 one edge e1 = (tgt, w1) of n *)
Definition pr34_edge (all : bool) (limit : N) (G : graph) (n : nat) (s : p34) (e1 : nat * N) : option p34 :=
  let '(tgt, w1) := e1 in
  if nth tgt (p_fin s) false then
    Some (mk_p34 (p_uf s) (upd (p_mark s) tgt None) (p_fin s) (p_con s))
  else
    let s1 := mk_p34 (p_uf s) (p_mark s) (upd (p_fin s) tgt true) (p_con s) in
    if n <? tgt then
      match tri_edges all limit G n tgt w1 (s1, w1) (nth tgt G []) with
      | None => None
      | Some (s2, sum) =>
          match (if (limit <=? sum)%N then
                   match uf_union (p_uf s2) n tgt with
                   | Some (u', _) => Some (mk_p34 u' (p_mark s2) (p_fin s2) (upd (upd (p_con s2) n true) tgt true))
                   | None => None
                   end
                 else Some s2) with
          | None => None
          | Some s3 => Some (mk_p34 (p_uf s3) (upd (p_mark s3) tgt None) (p_fin s3) (p_con s3))
          end
      end
    else Some s1.

(* contraction_tests.h:124-181 the edges of n *)
Fixpoint pr34_edges (all : bool) (limit : N) (G : graph) (n : nat) (s : p34) (es : list (nat * N)) : option p34 :=
  match es with
  | [] => Some s
  | e :: es' => match pr34_edge all limit G n s e with Some s' => pr34_edges all limit G n s' es' | None => None end
  end.

(* contraction_tests.h:110-182 one node *)
Definition pr34_node (all : bool) (limit : N) (G : graph) (s : p34) (n : nat) : option p34 :=
  if nth n (p_fin s) false then Some s
  else pr34_edges all limit G n
         (mk_p34 (p_uf s) (mark_edges n 0 (nth n G []) (p_mark s)) (upd (p_fin s) n true) (p_con s)) (nth n G []).

(* contraction_tests.h:110-182 all nodes *)
Fixpoint pr34_nodes (all : bool) (limit : N) (G : graph) (s : p34) (ns : list nat) : option p34 :=
  match ns with
  | [] => Some s
  | n :: ns' => match pr34_node all limit G s n with Some s' => pr34_nodes all limit G s' ns' | None => None end
  end.

(* contraction_tests.h:99-184 prTests34 *)
Definition pr_tests34 (all : bool) (G : graph) (limit : N) : option uf :=
  let n := length G in
  match pr34_nodes all limit G (mk_p34 (uf_init n) (repeat None n) (repeat false n) (repeat false n)) (seq 0 n) with
  | Some s => Some (p_uf s)
  | None => None
  end.
