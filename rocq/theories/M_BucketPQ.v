(* M_BucketPQ.v - models of lib/data_structure/priority_queues/node_bucket_pq.h and
   fifo_node_bucket_pq.h.  Bucket addresses are computed without the truncation of `unsigned address`
   to 32 bits (line 75 resp. 77): the callers' gain span is below 2^31. *)
From Verif Require Export SpecPQ.

(* node_bucket_pq.h:50-55 / fifo_node_bucket_pq.h:50-56.
   bq_ix: (m_queue_index[v].first, .second), None = UNDEFINED_COUNT.
   bq_off: m_bucket_offset, only used by the fifo variant. *)
Record bq := mk_bq {
  bq_cnt : nat; bq_span : nat; bq_mx : nat;
  bq_ix : list (option nat * N); bq_bk : list (list nat); bq_off : list nat }.

(* node_bucket_pq.h:58-68 / fifo_node_bucket_pq.h:59-70 constructor *)
Definition bq_init (n span : nat) : bq :=
  mk_bq 0 span 0 (repeat (None, 0%N) n) (repeat [] (2 * span + 1)) (repeat 0 (2 * span + 1)).

(* node_bucket_pq.h:75, 140 / fifo:77, 147  address = gain + m_gain_span *)
Definition bq_addr (s : bq) (k : N) : nat := N.to_nat k + bq_span s.

(* m_queue_index[v].first = c: node_bucket_pq.h:103, 144, 162 / fifo:110, 153, 173 *)
Definition ix_first (ix : list (option nat * N)) (v : nat) (c : option nat) : list (option nat * N) :=
  upd ix v (c, snd (nth v ix (None, 0%N))).

(* node_bucket_pq.h:74-85 (fifo:76-89) insert; None = address or node out of range *)
Definition bq_insert (s : bq) (v : nat) (k : N) : option bq :=
  let k := key32 k in
  let a := bq_addr s k in
  if (a <? length (bq_bk s)) && (v <? length (bq_ix s)) then
    let b := nth a (bq_bk s) [] ++ [v] in
    Some (mk_bq (S (bq_cnt s)) (bq_span s) (if bq_mx s <? a then a else bq_mx s)
                (upd (bq_ix s) v (Some (length b + nth a (bq_off s) 0 - 1), k))
                (upd (bq_bk s) a b) (bq_off s))
  else None.

(* node_bucket_pq.h:107-112, 152-157 (fifo:114-119, 163-168): walk m_max_idx down to the next
   non-empty bucket, stopping at 0 *)
Fixpoint lower (bk : list (list nat)) (mx : nat) : nat :=
  match mx with
  | 0 => 0
  | S m => match nth m bk [] with [] => lower bk m | _ :: _ => m end
  end.

(* node_bucket_pq.h:99-117 deleteMax (LIFO); None = back() of an empty bucket *)
Definition lifo_delete_max (s : bq) : option (bq * nat) :=
  match nth (bq_mx s) (bq_bk s) [] with
  | [] => None
  | x :: xs =>
      let b := x :: xs in
      let v := last b 0 in
      let bk' := upd (bq_bk s) (bq_mx s) (removelast b) in
      Some (mk_bq (bq_cnt s - 1) (bq_span s)
              (match removelast b with [] => lower bk' (bq_mx s) | _ => bq_mx s end)
              (ix_first (bq_ix s) v None) bk' (bq_off s), v)
  end.

(* node_bucket_pq.h:136-163 deleteNode (LIFO); None = node not queued *)
Definition lifo_delete_node (s : bq) (v : nat) : option bq :=
  match nth_error (bq_ix s) v with
  | Some (Some p, k) =>
      let a := bq_addr s k in
      let b := nth a (bq_bk s) [] in
      if 1 <? length b then
        let ix1 := ix_first (bq_ix s) (last b 0) (Some p) in
        let b1 := upd (upd b p (last b 0)) (length b - 1) (nth p b 0) in
        Some (mk_bq (bq_cnt s - 1) (bq_span s) (bq_mx s) (ix_first ix1 v None)
                    (upd (bq_bk s) a (removelast b1)) (bq_off s))
      else
        let bk' := upd (bq_bk s) a (removelast b) in
        Some (mk_bq (bq_cnt s - 1) (bq_span s)
                    (if a =? bq_mx s then lower bk' (bq_mx s) else bq_mx s)
                    (ix_first (bq_ix s) v None) bk' (bq_off s))
  | _ => None
  end.

(* fifo_node_bucket_pq.h:103-124 deleteMax (FIFO) *)
Definition fifo_delete_max (s : bq) : option (bq * nat) :=
  match nth (bq_mx s) (bq_bk s) [] with
  | [] => None
  | v :: b' =>
      let bk' := upd (bq_bk s) (bq_mx s) b' in
      Some (mk_bq (bq_cnt s - 1) (bq_span s)
              (match b' with [] => lower bk' (bq_mx s) | _ => bq_mx s end)
              (ix_first (bq_ix s) v None) bk'
              (upd (bq_off s) (bq_mx s) (S (nth (bq_mx s) (bq_off s) 0))), v)
  end.

(* fifo_node_bucket_pq.h:143-174 deleteNode (FIFO) *)
Definition fifo_delete_node (s : bq) (v : nat) : option bq :=
  match nth_error (bq_ix s) v with
  | Some (Some c, k) =>
      let a := bq_addr s k in
      let b := nth a (bq_bk s) [] in
      let p := c - nth a (bq_off s) 0 in
      let off' := upd (bq_off s) a (S (nth a (bq_off s) 0)) in
      if 1 <? length b then
        let ix1 := ix_first (bq_ix s) (hd 0 b) (Some c) in
        let b1 := upd (upd b p (hd 0 b)) 0 (nth p b 0) in
        Some (mk_bq (bq_cnt s - 1) (bq_span s) (bq_mx s) (ix_first ix1 v None)
                    (upd (bq_bk s) a (tl b1)) off')
      else
        let bk' := upd (bq_bk s) a (tl b) in
        Some (mk_bq (bq_cnt s - 1) (bq_span s)
                    (if a =? bq_mx s then lower bk' (bq_mx s) else bq_mx s)
                    (ix_first (bq_ix s) v None) bk' off')
  | _ => None
  end.

(* the two classes node_bucket_pq.h:99,136 and fifo_node_bucket_pq.h:103,143: true = fifo_node_bucket_pq, false = node_bucket_pq *)
Definition bq_delete_max (fifo : bool) (s : bq) : option (bq * nat) :=
  if fifo then fifo_delete_max s else lifo_delete_max s.
Definition bq_delete_node (fifo : bool) (s : bq) (v : nat) : option bq :=
  if fifo then fifo_delete_node s v else lifo_delete_node s v.

(* node_bucket_pq.h:131-134 (fifo:138-141) changeKey; decreaseKey/increaseKey (119-125, fifo:126-132) call it *)
Definition bq_change_key (fifo : bool) (s : bq) (v : nat) (k : N) : option bq :=
  match bq_delete_node fifo s v with Some s' => bq_insert s' v k | None => None end.

(* one call of the public interface, node_bucket_pq.h:70-167 / fifo:72-178 *)
Definition bq_step (fifo : bool) (s : bq) (o : qop) : option (bq * qres) :=
  match o with
  | QInsert v k => option_map (fun s' => (s', RUnit)) (bq_insert s v k)
  | QDeleteMax => option_map (fun '(s', v) => (s', RNode v)) (bq_delete_max fifo s)
  | QDeleteNode v => option_map (fun s' => (s', RUnit)) (bq_delete_node fifo s v)
  | QIncreaseKey v k | QDecreaseKey v k | QChangeKey v k =>
      option_map (fun s' => (s', RUnit)) (bq_change_key fifo s v k)
  | QContains v => option_map (fun e => (s, RBool (match fst e with Some _ => true | None => false end)))
                     (nth_error (bq_ix s) v)                          (* 165-167 (fifo:176-178) *)
  | QGetKey v => option_map (fun e => (s, RKey (snd e))) (nth_error (bq_ix s) v)  (* 127-129 (fifo:134-136) *)
  | QSize => Some (s, RNum (bq_cnt s))                                (* 70-72 (fifo:72-74) *)
  | QEmpty => Some (s, RBool (bq_cnt s =? 0))                         (* 87-89 (fifo:91-93) *)
  | QMaxElement => match nth (bq_mx s) (bq_bk s) [] with              (* 95-97 (fifo:99-101) *)
                   | [] => None
                   | x :: xs => Some (s, RNode (if fifo then x else last (x :: xs) 0)) end
  | QMaxValue => Some (s, RKey (N.of_nat (bq_mx s - bq_span s)))      (* 91-93 (fifo:95-97) *)
  end.

(* a history of calls; stops at an error *)
Fixpoint bq_run (fifo : bool) (s : bq) (os : list qop) : list qres :=
  match os with
  | [] => []
  | o :: os' => match bq_step fifo s o with Some (s', r) => r :: bq_run fifo s' os' | None => [] end
  end.
