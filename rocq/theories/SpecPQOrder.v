(* SpecPQOrder.v - specification of the order in which a bucket queue hands out elements of equal
   key: the queue is the list of queued (node, key) pairs in the order of their insertion.
   Independent of the models. *)
From Verif Require Export SpecPQ.

(** the largest key, and the nodes carrying it, oldest first *)
Definition kmax (l : list (nat * N)) : N := fold_right N.max 0%N (map snd l).
Definition at_max (l : list (nat * N)) : list nat :=
  map fst (filter (fun e => (snd e =? kmax l)%N) l).

(** who is handed out: the oldest (FIFO) or the youngest (LIFO) of maximal key *)
Definition pick (fifo : bool) (l : list (nat * N)) : nat :=
  if fifo then hd 0 (at_max l) else last (at_max l) 0.

(** answers to a history of insertions and deleteMax calls *)
Fixpoint ord_run (fifo : bool) (l : list (nat * N)) (os : list qop) : list qres :=
  match os with
  | QInsert v k :: os' => RUnit :: ord_run fifo (l ++ [(v, key32 k)]) os'
  | QDeleteMax :: os' =>
      RNode (pick fifo l) :: ord_run fifo (filter (fun e => negb (fst e =? pick fifo l)) l) os'
  | _ => []
  end.

(** the history consists of insertions of nodes that are not queued, with keys within the span, and of
    deleteMax calls on a non-empty queue *)
Fixpoint ord_ok (fifo : bool) (n span : nat) (l : list (nat * N)) (os : list qop) : Prop :=
  match os with
  | [] => True
  | QInsert v k :: os' =>
      v < n /\ ~ In v (map fst l) /\ (key32 k <= N.of_nat span)%N /\
      ord_ok fifo n span (l ++ [(v, key32 k)]) os'
  | QDeleteMax :: os' =>
      l <> [] /\ ord_ok fifo n span (filter (fun e => negb (fst e =? pick fifo l)) l) os'
  | _ => False
  end.
