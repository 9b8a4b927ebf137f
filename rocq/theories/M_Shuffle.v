(* M_Shuffle.v - model of the shuffles in lib/tools/random_functions.h.  A draw from
   uniform_int_distribution(0, hi) is rnd k mod (hi + 1) for an arbitrary stream rnd. *)
From Verif Require Export Lib.

(* std::swap(vec[i], vec[j]), e.g. random_functions.h:56; None: index out of range *)
Definition swap {A} (l : list A) (i j : nat) : option (list A) :=
  match nth_error l i, nth_error l j with
  | Some x, Some y => Some (upd (upd l i y) j x)
  | _, _ => None
  end.

(* random_functions.h:44-45 uniform_int_distribution(0, hi): the k-th draw *)
Definition draw (rnd : nat -> nat) (k hi : nat) : nat := rnd k mod (S hi).

(* random_functions.h:78-81, 114-117, 141-144 four neighbouring swaps *)
Definition swap4 {A} (l : list A) (a b : nat) : option (list A) :=
  match swap l a b with
  | None => None
  | Some l1 =>
      match swap l1 (a + 1) (b + 1) with
      | None => None
      | Some l2 => match swap l2 (a + 2) (b + 2) with None => None | Some l3 => swap l3 (a + 3) (b + 3) end
      end
  end.

(* random_functions.h:49-53: posB is drawn until it differs from posA; None: the given number of draws was
   not enough (the C++ loop keeps drawing) *)
Fixpoint draw_other (fuel : nat) (rnd : nat -> nat) (k hi a : nat) : option (nat * nat) :=
  let b := draw rnd k hi in
  if b =? a then match fuel with 0 => None | S f => draw_other f rnd (S k) hi a end else Some (b, S k).
(* random_functions.h:47-58 *)
Fixpoint circular_loop (fuel : nat) (rnd : nat -> nat) (hi : nat) (rounds k : nat) (l : list nat) : option (list nat) :=
  match rounds with
  | 0 => Some l
  | S r =>
      let a := draw rnd k hi in
      match draw_other fuel rnd (S k) hi a with
      | None => None
      | Some (b, k') =>
          match nth_error l a, nth_error l b with
          | Some x, Some y =>
              if negb (a =? y) && negb (b =? x)
              then match swap l a b with Some l' => circular_loop fuel rnd hi r k' l' | None => None end
              else circular_loop fuel rnd hi r k' l
          | _, _ => None
          end
      end
  end.
(* random_functions.h:36-59 circular_permutation *)
Definition circular_permutation (fuel : nat) (rnd : nat -> nat) (l : list nat) : option (list nat) :=
  if length l <? 2 then Some l else circular_loop fuel rnd (length l - 1) (length l) 0 (seq 0 (length l)).

(* random_functions.h:75-82 *)
Fixpoint fast_loop {A} (rnd : nat -> nat) (size : nat) (is : list nat) (l : list A) : option (list A) :=
  match is with
  | [] => Some l
  | i :: is' => match swap4 l i ((i + draw rnd i 20) mod size) with Some l' => fast_loop rnd size is' l' | None => None end
  end.
(* random_functions.h:62-83 permutate_vector_fast, after the initialisation *)
Definition permutate_fast {A} (rnd : nat -> nat) (l : list A) : option (list A) :=
  if length l <? 10 then Some l else fast_loop rnd (length l - 4) (seq 0 (length l - 4)) l.

(* random_functions.h:95-98: std::shuffle of every piece of 128 entries is any function shuf *)
Fixpoint local_loop {A} (fuel : nat) (shuf : nat -> list A -> list A) (i : nat) (l : list A) : list A :=
  match fuel with
  | 0 => l
  | S f => if i <? length l then local_loop f shuf (i + 128) (firstn i l ++ shuf i (firstn 128 (skipn i l)) ++ skipn (i + 128) l) else l
  end.
(* random_functions.h:86-99 permutate_vector_local, after the initialisation *)
Definition permutate_local {A} (shuf : nat -> list A -> list A) (l : list A) : list A := local_loop (S (length l)) shuf 0 l.

(* random_functions.h:111-118, 138-145 *)
Fixpoint good_loop {A} (rnd : nat -> nat) (hi : nat) (rounds k : nat) (l : list A) : option (list A) :=
  match rounds with
  | 0 => Some l
  | S r => match swap4 l (draw rnd k hi) (draw rnd (S k) hi) with Some l' => good_loop rnd hi r (S (S k)) l' | None => None end
  end.
(* random_functions.h:102-119 permutate_vector_good with one argument *)
Definition permutate_good1 {A} (rnd : nat -> nat) (l : list A) : option (list A) :=
  if length l <? 4 then Some l else good_loop rnd (length l - 4) (length l) 0 l.

(* random_functions.h:156-160 *)
Fixpoint small_loop {A} (rnd : nat -> nat) (hi : nat) (rounds k : nat) (l : list A) : option (list A) :=
  match rounds with
  | 0 => Some l
  | S r => match swap l (draw rnd k hi) (draw rnd (S k) hi) with Some l' => small_loop rnd hi r (S (S k)) l' | None => None end
  end.
(* random_functions.h:149-161 permutate_vector_good_small *)
Definition permutate_good_small {A} (rnd : nat -> nat) (l : list A) : option (list A) :=
  if length l <? 2 then Some l else small_loop rnd (length l - 1) (length l) 0 l.

(* random_functions.h:129-145 permutate_vector_good with two arguments, after the initialisation *)
Definition permutate_good {A} (rnd : nat -> nat) (l : list A) : option (list A) :=
  if length l <? 10 then permutate_good_small rnd l else good_loop rnd (length l - 4) (length l) 0 l.

(* random_functions.h:64-68, 88-92, 124-128: with init the vector is filled with 0..n-1 first *)
Definition init_vec (init : bool) (l : list nat) : list nat := if init then seq 0 (length l) else l.
