(* M_AllCut.v - model of lib/algorithms/global_mincut/cactus/all_cut_local_red.h.  The graph is given by its edge lists;
   edges of n are numbered from 0 as in mutable_graph.  Weights are ideal (EdgeWeight is 64 bits wide).  The unused vector
   [contracted] of allCutsPrTests12 is left out. *)
From Verif Require Export M_PRTests.

(* all_cut_local_red.h:41-60 one edge (t, w) of n; state: union-find and degrees *)
Definition ac12_edge (limit : N) (n : nat) (s : uf * list N) (e : nat * N) : option (uf * list N) :=
  let '(u, d) := s in
  let '(t, w) := e in
  match uf_find u t with
  | None => None
  | Some (u1, target) =>
      match uf_find u1 n with
      | None => None
      | Some (u2, source) =>
          let ds := nth source d 0%N in
          let dt := nth target d 0%N in
          if negb (target =? source) && ((limit <? w)%N || (ds <? 2 * w)%N || (dt <? 2 * w)%N)
             && (limit <? ds)%N && (limit <? dt)%N then
            let nw := (ds + dt - 2 * w)%N in
            match uf_union u2 source target with
            | Some (u3, _) => Some (u3, upd (upd d source nw) target nw)
            | None => None
            end
          else Some (u2, d)
      end
  end.

(* all_cut_local_red.h:41 the edges of n *)
Fixpoint ac12_edges (limit : N) (n : nat) (s : uf * list N) (es : list (nat * N)) : option (uf * list N) :=
  match es with
  | [] => Some s
  | e :: es' => match ac12_edge limit n s e with Some s' => ac12_edges limit n s' es' | None => None end
  end.

(* all_cut_local_red.h:40 the nodes *)
Fixpoint ac12_nodes (limit : N) (G : graph) (s : uf * list N) (ns : list nat) : option (uf * list N) :=
  match ns with
  | [] => Some s
  | n :: ns' => match ac12_edges limit n s (nth n G []) with Some s' => ac12_nodes limit G s' ns' | None => None end
  end.

(* all_cut_local_red.h:30-62 allCutsPrTests12 *)
Definition ac_tests12 (G : graph) (limit : N) : option uf :=
  match ac12_nodes limit G (uf_init (length G), map (deg G) (seq 0 (length G))) (seq 0 (length G)) with
  | Some (u, _) => Some u
  | None => None
  end.

(* all_cut_local_red.h:66-69 state of allCutsPrTests34; marked holds an edge number, None = UNDEFINED_EDGE *)
Record a34 := mk_a34 { a_uf : uf; a_mark : list (option nat); a_fin : list bool; a_con : list bool }.

(* all_cut_local_red.h:76-81 marking the later neighbours of n *)
Fixpoint ac_mark (n : nat) (pos : nat) (es : list (nat * N)) (mk : list (option nat)) : list (option nat) :=
  match es with
  | [] => mk
  | (t, _) :: es' => ac_mark n (S pos) es' (if n <? t then upd mk t (Some pos) else mk)
  end.

(* all_cut_local_red.h:95-121 one edge e2 = (t2, w2) of tgt; sum = wgt_sum *)
Definition ac_tri (limit : N) (G : graph) (n tgt : nat) (w1 : N) (st : a34 * N) (e2 : nat * N) : option (a34 * N) :=
  let '(s, sum) := st in
  let '(t2, w2) := e2 in
  match nth t2 (a_mark s) None with
  | None => Some st
  | Some e =>
      if length (nth n G []) <=? e then Some st
      else
        let w3 := snd (nth e (nth n G []) (0, 0%N)) in
        let dn := deg G n in
        let dt := deg G tgt in
        let sum' := (sum + N.min w2 w3)%N in
        if (dn <? 2 * (w1 + w3))%N && (dt <? 2 * (w1 + w2))%N && (limit <? dn)%N && (limit <? dt)%N
           && negb (nth n (a_con s) false) && negb (nth tgt (a_con s) false) then
          match uf_union (a_uf s) n tgt with
          | Some (u', _) => Some (mk_a34 u' (a_mark s) (a_fin s) (upd (upd (a_con s) n true) tgt true), sum')
          | None => None
          end
        else Some (s, sum')
  end.

(* all_cut_local_red.h:95-121 the edges of tgt *)
Fixpoint ac_tris (limit : N) (G : graph) (n tgt : nat) (w1 : N) (st : a34 * N) (es : list (nat * N)) : option (a34 * N) :=
  match es with
  | [] => Some st
  | e :: es' => match ac_tri limit G n tgt w1 st e with Some st' => ac_tris limit G n tgt w1 st' es' | None => None end
  end.

(* all_cut_local_red.h:84-130 one edge e1 = (tgt, w1) of n *)
Definition ac34_edge (limit : N) (G : graph) (n : nat) (s : a34) (e1 : nat * N) : option a34 :=
  let '(tgt, w1) := e1 in
  if nth tgt (a_fin s) false then
    Some (mk_a34 (a_uf s) (upd (a_mark s) tgt None) (a_fin s) (a_con s))
  else
    let s1 := mk_a34 (a_uf s) (a_mark s) (upd (a_fin s) tgt true) (a_con s) in
    if n <? tgt then
      match ac_tris limit G n tgt w1 (s1, w1) (nth tgt G []) with
      | None => None
      | Some (s2, sum) =>
          match (if (limit <? sum)%N then
                   match uf_union (a_uf s2) n tgt with
                   | Some (u', _) => Some (mk_a34 u' (a_mark s2) (a_fin s2) (upd (upd (a_con s2) n true) tgt true))
                   | None => None
                   end
                 else Some s2) with
          | None => None
          | Some s3 => Some (mk_a34 (a_uf s3) (upd (a_mark s3) tgt None) (a_fin s3) (a_con s3))
          end
      end
    else Some s1.

(* all_cut_local_red.h:84 the edges of n *)
Fixpoint ac34_edges (limit : N) (G : graph) (n : nat) (s : a34) (es : list (nat * N)) : option a34 :=
  match es with
  | [] => Some s
  | e :: es' => match ac34_edge limit G n s e with Some s' => ac34_edges limit G n s' es' | None => None end
  end.

(* all_cut_local_red.h:71-131 one node *)
Definition ac34_node (limit : N) (G : graph) (s : a34) (n : nat) : option a34 :=
  if nth n (a_fin s) false then Some s
  else ac34_edges limit G n
         (mk_a34 (a_uf s) (ac_mark n 0 (nth n G []) (a_mark s)) (upd (a_fin s) n true) (a_con s)) (nth n G []).

(* all_cut_local_red.h:71 all nodes *)
Fixpoint ac34_nodes (limit : N) (G : graph) (s : a34) (ns : list nat) : option a34 :=
  match ns with
  | [] => Some s
  | n :: ns' => match ac34_node limit G s n with Some s' => ac34_nodes limit G s' ns' | None => None end
  end.

(* all_cut_local_red.h:64-133 allCutsPrTests34 *)
Definition ac_tests34 (G : graph) (limit : N) : option uf :=
  let n := length G in
  match ac34_nodes limit G (mk_a34 (uf_init n) (repeat None n) (repeat false n) (repeat false n)) (seq 0 n) with
  | Some s => Some (a_uf s)
  | None => None
  end.
