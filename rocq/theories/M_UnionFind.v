(* M_UnionFind.v - model of lib/data_structure/union_find.h (lines 21-65). *)
From Verif Require Export Lib.

(* union_find.h:60-64  (m_parent, m_rank, m_n) *)
Record uf := mk_uf { parent : list nat; rank : list nat; cnt : nat }.

(* union_find.h:23-28  constructor: every element its own parent, rank 0, m_n = n *)
Definition uf_init (n : nat) : uf := mk_uf (seq 0 n) (repeat 0 n) n.

(* union_find.h:45-52  Find: recursion to the root, path compression on the way
   back.  The recursion is bounded by explicit fuel; None = fuel exhausted or an
   out-of-range access of m_parent.  Returns the new m_parent and the result. *)
Fixpoint find_fuel (fuel : nat) (p : list nat) (x : nat) : option (list nat * nat) :=
  match fuel with
  | 0 => None
  | S fuel' =>
      match nth_error p x with
      | None => None
      | Some px =>
          if px =? x then Some (p, x)
          else match find_fuel fuel' p px with
               | None => None
               | Some (p', r) => Some (upd p' x r, r)
               end
      end
  end.

(* union_find.h:45-52, with fuel length m_parent (shown sufficient in P_UnionFind) *)
Definition uf_find (u : uf) (x : nat) : option (uf * nat) :=
  match find_fuel (length (parent u)) (parent u) x with
  | None => None
  | Some (p', r) => Some (mk_uf p' (rank u) (cnt u), r)
  end.

(* union_find.h:29-43  Union: find both, link by rank, decrement m_n *)
Definition uf_union (u : uf) (lhs rhs : nat) : option (uf * bool) :=
  match uf_find u lhs with
  | None => None
  | Some (u1, a) =>
      match uf_find u1 rhs with
      | None => None
      | Some (u2, b) =>
          if a =? b then Some (u2, false)
          else
            let ra := nth a (rank u2) 0 in
            let rb := nth b (rank u2) 0 in
            if ra <? rb
            then Some (mk_uf (upd (parent u2) a b) (rank u2) (cnt u2 - 1), true)
            else Some (mk_uf (upd (parent u2) b a)
                             (if ra =? rb then upd (rank u2) a (S ra) else rank u2)
                             (cnt u2 - 1), true)
      end
  end.

(* A history of calls on one object (union_find.h:29, 45). *)
Inductive uf_op := OUnion (a b : nat) | OFind (a : nat).

Inductive uf_res := RBool (b : bool) | RNode (x : nat).

(* dispatch of one call (union_find.h:29-52) *)
Definition uf_step (u : uf) (o : uf_op) : option (uf * uf_res) :=
  match o with
  | OUnion a b => match uf_union u a b with Some (u', r) => Some (u', RBool r) | None => None end
  | OFind a => match uf_find u a with Some (u', r) => Some (u', RNode r) | None => None end
  end.

(* a whole history (driver, no counterpart in the code): final state and all results *)
Fixpoint uf_run (u : uf) (os : list uf_op) : option (uf * list uf_res) :=
  match os with
  | [] => Some (u, [])
  | o :: os' =>
      match uf_step u o with
      | None => None
      | Some (u', r) =>
          match uf_run u' os' with
          | None => None
          | Some (u'', rs) => Some (u'', r :: rs)
          end
      end
  end.

(* union_find.h:56-57  n() *)
Definition uf_n (u : uf) : nat := cnt u.
