(* M_MapPQ.v - model of lib/data_structure/priority_queues/bucket_pq.h: a bucket queue whose index is a hash map.  Bucket
   addresses are not truncated to 32 bits (see M_BucketPQ); the debug assertion in deleteNode is off.  None: a bucket that does
   not exist, or back()/pop_back() of an empty bucket. *)
From Verif Require Export M_BucketPQ.

(* bucket_pq.h:49-55; bp_ix: m_queue_index *)
Record bp := mk_bp { bp_cnt : nat; bp_span : nat; bp_mx : nat; bp_ix : nat -> option (nat * N); bp_bk : list (list nat) }.
(* bucket_pq.h:58-64 constructor *)
Definition bp_init (span : nat) : bp := mk_bp 0 span 0 (fun _ => None) (repeat [] (2 * span + 1)).
(* operator[] of the map: a missing entry is made, as (0, 0); bucket_pq.h:77-78, 123, 133-134, 139 *)
Definition bp_at (ix : nat -> option (nat * N)) (v : nat) : nat * N := match ix v with Some e => e | None => (0, 0%N) end.
Definition bp_set (ix : nat -> option (nat * N)) (v : nat) (e : option (nat * N)) : nat -> option (nat * N) := fun u => if u =? v then e else ix u.
(* bucket_pq.h:70-81 insert *)
Definition bp_insert (s : bp) (v : nat) (k : N) : option bp :=
  let k := key32 k in
  let a := N.to_nat k + bp_span s in
  if a <? length (bp_bk s) then
    let b := nth a (bp_bk s) [] ++ [v] in
    Some (mk_bp (S (bp_cnt s)) (bp_span s) (if bp_mx s <? a then a else bp_mx s) (bp_set (bp_ix s) v (Some (length b - 1, k))) (upd (bp_bk s) a b))
  else None.
(* bucket_pq.h:95-112 deleteMax *)
Definition bp_delete_max (s : bp) : option (bp * nat) :=
  match nth (bp_mx s) (bp_bk s) [] with
  | [] => None
  | x :: xs =>
      let b := x :: xs in
      let v := last b 0 in
      let bk' := upd (bp_bk s) (bp_mx s) (removelast b) in
      Some (mk_bp (bp_cnt s - 1) (bp_span s) (match removelast b with [] => lower bk' (bp_mx s) | _ => bp_mx s end) (bp_set (bp_ix s) v None) bk', v)
  end.
(* bucket_pq.h:131-158 deleteNode *)
Definition bp_delete_node (s : bp) (v : nat) : option bp :=
  let (p, k) := bp_at (bp_ix s) v in
  let a := N.to_nat k + bp_span s in
  let b := nth a (bp_bk s) [] in
  if (p <? length b) && (a <? length (bp_bk s)) then
    if 1 <? length b then
      let ix0 := bp_set (bp_ix s) v (Some (p, k)) in
      let ix1 := bp_set ix0 (last b 0) (Some (p, snd (bp_at ix0 (last b 0)))) in
      let b1 := upd (upd b p (last b 0)) (length b - 1) (nth p b 0) in
      Some (mk_bp (bp_cnt s - 1) (bp_span s) (bp_mx s) (bp_set ix1 v None) (upd (bp_bk s) a (removelast b1)))
    else
      let bk' := upd (bp_bk s) a (removelast b) in
      Some (mk_bp (bp_cnt s - 1) (bp_span s) (if a =? bp_mx s then lower bk' (bp_mx s) else bp_mx s) (bp_set (bp_ix s) v None) bk')
  else None.
(* bucket_pq.h:126-129 changeKey; decreaseKey and increaseKey (114-120) call it *)
Definition bp_change_key (s : bp) (v : nat) (k : N) : option bp := match bp_delete_node s v with Some s' => bp_insert s' v k | None => None end.
(* one call of the interface, bucket_pq.h:66-172; getKey (122-124) makes a missing entry *)
Definition bp_step (s : bp) (o : qop) : option (bp * qres) :=
  match o with
  | QInsert v k => option_map (fun s' => (s', RUnit)) (bp_insert s v k)
  | QDeleteMax => option_map (fun '(s', v) => (s', RNode v)) (bp_delete_max s)
  | QDeleteNode v => option_map (fun s' => (s', RUnit)) (bp_delete_node s v)
  | QIncreaseKey v k | QDecreaseKey v k | QChangeKey v k => option_map (fun s' => (s', RUnit)) (bp_change_key s v k)
  | QContains v => Some (s, RBool (match bp_ix s v with Some _ => true | None => false end))
  | QGetKey v => Some (mk_bp (bp_cnt s) (bp_span s) (bp_mx s) (bp_set (bp_ix s) v (Some (bp_at (bp_ix s) v))) (bp_bk s), RKey (snd (bp_at (bp_ix s) v)))
  | QSize => Some (s, RNum (bp_cnt s))
  | QEmpty => Some (s, RBool (bp_cnt s =? 0))
  | QMaxElement => match nth (bp_mx s) (bp_bk s) [] with [] => None | x :: xs => Some (s, RNode (last (x :: xs) 0)) end
  | QMaxValue => Some (s, RKey (N.of_nat (bp_mx s - bp_span s)))
  end.
(* a history of calls (bucket_pq.h:66-172); stops at an error *)
Fixpoint bp_run (s : bp) (os : list qop) : list qres :=
  match os with [] => [] | o :: os' => match bp_step s o with Some (s', r) => r :: bp_run s' os' | None => [] end end.
