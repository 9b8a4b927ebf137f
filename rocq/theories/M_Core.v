(* M_Core.v - model of lib/algorithms/misc/core_decomposition.h batagelj_zaversnik.  The graph is the list of
   target lists; unsigned 32 bit entries are unbounded.  An access out of range of one of the four vectors is
   None. *)
From Verif Require Export Lib.

(* a loop whose body may fail; stands for the for loops of core_decomposition.h:48, 59, 66, 78, 80 *)
Fixpoint fold_opt {S A} (f : S -> A -> option S) (l : list A) (s : S) : option S :=
  match l with [] => Some s | a :: l' => match f s a with Some s' => fold_opt f l' s' | None => None end end.

(* core_decomposition.h:25-37 struct k_cores *)
Record k_cores := mk_kc { k_deg : list nat; k_vert : list nat; k_pos : list nat; k_buck : list nat }.

(* std::vector::resize to at least the current size: core_decomposition.h:51 *)
Definition resize (l : list nat) (n : nat) : list nat := l ++ repeat 0 (n - length l).

(* core_decomposition.h:48-56 degrees and bucket sizes; state: degrees, buckets, max_degree *)
Definition kc_count (nb : list (list nat)) (s : list nat * list nat * nat) (v : nat) : option (list nat * list nat * nat) :=
  let '(dg, bk, mx) := s in
  let d := length (nth v nb []) in
  let bk1 := if mx <? d then resize bk (d + 1) else bk in
  let mx1 := if mx <? d then d else mx in
  if (v <? length dg) && (d <? length bk1) then Some (upd dg v d, upd bk1 d (nth d bk1 0 + 1), mx1) else None.

(* core_decomposition.h:58-64 prefix sums; state: buckets, start *)
Definition kc_prefix (s : list nat * nat) (i : nat) : option (list nat * nat) :=
  let '(bk, start) := s in if i <? length bk then Some (upd bk i start, start + nth i bk 0) else None.

(* core_decomposition.h:66-71 placing the vertices; state: vertices, position, buckets *)
Definition kc_place (nb : list (list nat)) (s : list nat * list nat * list nat) (v : nat) : option (list nat * list nat * list nat) :=
  let '(vt, ps, bk) := s in
  let d := length (nth v nb []) in
  let p := nth d bk 0 in
  if (d <? length bk) && (p <? length vt) && (v <? length ps) then Some (upd vt p v, upd ps v p, upd bk d (p + 1)) else None.

(* core_decomposition.h:73-76: for (i = max_degree; i > 0; --i) buckets[i] = buckets[i - 1]; buckets[0] = 0 *)
Fixpoint kc_shift (i : nat) (bk : list nat) : list nat :=
  match i with
  | 0 => upd bk 0 0
  | S j => kc_shift j (upd bk i (nth j bk 0))
  end.

(* core_decomposition.h:82-96 one edge from v to t *)
Definition kc_edge (v : nat) (s : k_cores) (t : nat) : option k_cores :=
  if negb (t <? length (k_deg s)) then None
  else if nth v (k_deg s) 0 <? nth t (k_deg s) 0 then
    let dt := nth t (k_deg s) 0 in
    let pt := nth t (k_pos s) 0 in
    let pw := nth dt (k_buck s) 0 in
    let w := nth pw (k_vert s) 0 in
    let ps := if t =? w then k_pos s else upd (upd (k_pos s) t pw) w pt in
    let vt := if t =? w then k_vert s else upd (upd (k_vert s) pt w) pw t in
    if (dt <? length (k_buck s)) && (pw <? length (k_vert s)) && (pt <? length (k_vert s)) && (w <? length (k_pos s)) then
      Some (mk_kc (upd (k_deg s) t (dt - 1)) vt ps (upd (k_buck s) dt (pw + 1)))
    else None
  else Some s.

(* core_decomposition.h:78-98 *)
Definition kc_vertex (nb : list (list nat)) (s : k_cores) (i : nat) : option k_cores :=
  let v := nth i (k_vert s) 0 in if v <? length nb then fold_opt (kc_edge v) (nth v nb []) s else None.

(* core_decomposition.h:43-76 the bucket sort *)
Definition kc_init (nb : list (list nat)) : option k_cores :=
  let n := length nb in
  match fold_opt (kc_count nb) (seq 0 n) (repeat 0 n, [0], 0) with
  | None => None
  | Some (dg, bk0, mx) =>
      match fold_opt kc_prefix (seq 0 (mx + 1)) (bk0, 0) with
      | None => None
      | Some (bk1, _) =>
          match fold_opt (kc_place nb) (seq 0 n) (repeat 0 n, repeat 0 n, bk1) with
          | None => None
          | Some (vt, ps, bk2) => Some (mk_kc dg vt ps (kc_shift mx bk2))
          end
      end
  end.

(* core_decomposition.h:43-101 *)
Definition batagelj_zaversnik (nb : list (list nat)) : option k_cores :=
  match kc_init nb with Some s => fold_opt (kc_vertex nb) (seq 0 (length nb)) s | None => None end.
