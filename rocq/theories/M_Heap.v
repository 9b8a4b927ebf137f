(* M_Heap.v - model of lib/data_structure/priority_queues/vecMaxNodeHeap.h (lines 26-250).
   maxNodeHeap.h (lines 61-287) is the same algorithm, line by line, with an unordered_map instead
   of a vector as m_element_index. *)
From Verif Require Export SpecPQ.

(* vecMaxNodeHeap.h:57-59.  m_elements: (node, heap position); the key stored in QElement is written
   but never read and is omitted.  m_element_index: None = UNDEFINED_NODE.  m_heap: (key, element). *)
Record heap := mk_heap {
  h_el : list (nat * nat); h_ix : list (option nat); h_hp : list (N * nat) }.

(* vecMaxNodeHeap.h:35-37 constructor *)
Definition heap_init (n : nat) : heap := mk_heap [] (repeat None n) [].

(* m_heap[i] / m_elements[i] *)
Definition hp (s : heap) (i : nat) : N * nat := nth i (h_hp s) (0%N, 0).
Definition el (s : heap) (i : nat) : nat * nat := nth i (h_el s) (0, 0).

(* maxNodeHeap.h:53-55 set_index on m_elements[j] *)
Definition set_index (e : list (nat * nat)) (j p : nat) : list (nat * nat) :=
  upd e j (fst (nth j e (0, 0)), p).

(* vecMaxNodeHeap.h:85-91, 99-105, 119-126: swap two heap slots and update the two positions *)
Definition hswap (s : heap) (p q : nat) : heap :=
  let hh := upd (upd (h_hp s) p (hp s q)) q (hp s p) in
  let e1 := set_index (h_el s) (snd (nth p hh (0%N, 0))) p in
  let e2 := set_index e1 (snd (nth q hh (0%N, 0))) q in
  mk_heap e2 (h_ix s) hh.

(* vecMaxNodeHeap.h:73-112 siftDown (recursion bounded by fuel; fuel = heap size suffices) *)
Fixpoint sift_down (fuel : nat) (s : heap) (pos : nat) : option heap :=
  match fuel with
  | 0 => None
  | S f =>
      let cur := fst (hp s pos) in
      let lc := 2 * pos + 1 in
      let rc := 2 * pos + 2 in
      if rc <? length (h_hp s) then
        let lk := fst (hp s lc) in
        let rk := fst (hp s rc) in
        if (lk <? cur)%N && (rk <? cur)%N then Some s
        else
          let sp := if (rk <? lk)%N then lc else rc in
          sift_down f (hswap s pos sp) sp
      else if lc <? length (h_hp s) then
        if (cur <? fst (hp s lc))%N then sift_down f (hswap s pos lc) lc else Some s
      else Some s
  end.

(* vecMaxNodeHeap.h:114-131 siftUp *)
Fixpoint sift_up (fuel : nat) (s : heap) (pos : nat) : option heap :=
  match fuel with
  | 0 => None
  | S f =>
      if 0 <? pos then
        let pp := (pos - 1) / 2 in
        if (fst (hp s pp) <? fst (hp s pos))%N then sift_up f (hswap s pp pos) pp else Some s
      else Some s
  end.

(* vecMaxNodeHeap.h:141-151 insert (gain truncated to 32 bits by the parameter type) *)
Definition heap_insert (s : heap) (v : nat) (k : N) : option heap :=
  match nth_error (h_ix s) v with
  | None => None
  | Some (Some _) => Some s
  | Some None =>
      let ei := length (h_el s) in
      let hs := length (h_hp s) in
      sift_up (S hs) (mk_heap (h_el s ++ [(v, hs)]) (upd (h_ix s) v (Some ei))
                              (h_hp s ++ [(key32 k, ei)])) hs
  end.

(* pop_back *)
Definition pop_back {A} (l : list A) : list A := firstn (length l - 1) l.

(* vecMaxNodeHeap.h:153-180 deleteNode *)
Definition heap_delete_node (s : heap) (v : nat) : option heap :=
  match nth_error (h_ix s) v with
  | Some (Some ei) =>
      let hi := snd (el s ei) in
      let ix1 := upd (h_ix s) v None in
      let last := length (h_hp s) - 1 in
      let hp1 := upd (upd (h_hp s) hi (hp s last)) last (hp s hi) in          (* line 159 *)
      let el1 := set_index (h_el s) (snd (nth hi hp1 (0%N, 0))) hi in         (* line 161 *)
      let elast := length el1 - 1 in
      let '(el2, hp2, ix2) :=
        if negb (ei =? elast) then                                            (* lines 165-170 *)
          let e2 := upd (upd el1 ei (nth elast el1 (0, 0))) elast (nth ei el1 (0, 0)) in
          let q := snd (nth ei e2 (0, 0)) in
          (e2, upd hp1 q (fst (nth q hp1 (0%N, 0)), ei), upd ix1 (fst (nth ei e2 (0, 0))) (Some ei))
        else (el1, hp1, ix1) in
      let s3 := mk_heap (pop_back el2) ix2 (pop_back hp2) in                  (* lines 172-173 *)
      if (1 <? length (h_hp s3)) && (hi <? length (h_hp s3)) then             (* lines 175-179 *)
        match sift_down (length (h_hp s3)) s3 hi with
        | None => None
        | Some s4 => sift_up (S hi) s4 hi
        end
      else Some s3
  | _ => None                         (* m_elements[UNDEFINED_NODE]: out of range *)
  end.

(* vecMaxNodeHeap.h:182-214 deleteMax; None = out-of-range access.  The answer -1 on an empty
   queue (line 213) is represented by the answer None inside the pair. *)
Definition heap_delete_max (s : heap) : option (heap * option nat) :=
  match h_hp s with
  | [] => Some (s, None)
  | _ :: _ =>
      let ei := snd (hp s 0) in
      let v := fst (el s ei) in
      let ix1 := upd (h_ix s) v None in
      let hp1 := upd (h_hp s) 0 (hp s (length (h_hp s) - 1)) in               (* line 188 *)
      let el1 := set_index (h_el s) (snd (nth 0 hp1 (0%N, 0))) 0 in           (* line 190 *)
      let elast := length el1 - 1 in
      let '(el2, hp2, ix2) :=
        if negb (ei =? elast) then                                            (* lines 194-200 *)
          let e2 := upd el1 ei (nth elast el1 (0, 0)) in
          let q := snd (nth ei e2 (0, 0)) in
          (e2, upd hp1 q (fst (nth q hp1 (0%N, 0)), ei), upd ix1 (fst (nth ei e2 (0, 0))) (Some ei))
        else (el1, hp1, ix1) in
      let s3 := mk_heap (pop_back el2) ix2 (pop_back hp2) in                  (* lines 202-203 *)
      if 1 <? length (h_hp s3) then                                           (* lines 205-208 *)
        match sift_down (length (h_hp s3)) s3 0 with
        | None => None
        | Some s4 => Some (s4, Some v)
        end
      else Some (s3, Some v)
  end.

(* lines 230, 239: m_heap[heap_idx].first = gain *)
Definition set_key (s : heap) (p : nat) (k : N) : heap :=
  mk_heap (h_el s) (h_ix s) (upd (h_hp s) p (k, snd (hp s p))).

(* heap position of a queued node: m_elements[m_element_index[node]].get_index() *)
Definition heap_pos (s : heap) (v : nat) : option nat :=
  match nth_error (h_ix s) v with Some (Some ei) => Some (snd (el s ei)) | _ => None end.

(* vecMaxNodeHeap.h:225-232 decreaseKey *)
Definition heap_decrease_key (s : heap) (v : nat) (k : N) : option heap :=
  match heap_pos s v with
  | Some p => sift_down (length (h_hp s)) (set_key s p (key32 k)) p
  | None => None
  end.

(* vecMaxNodeHeap.h:234-241 increaseKey *)
Definition heap_increase_key (s : heap) (v : nat) (k : N) : option heap :=
  match heap_pos s v with
  | Some p => sift_up (S p) (set_key s p (key32 k)) p
  | None => None
  end.

(* vecMaxNodeHeap.h:216-223 changeKey *)
Definition heap_change_key (s : heap) (v : nat) (k : N) : option heap :=
  match heap_pos s v with
  | Some p =>
      let old := fst (hp s p) in
      if (key32 k <? old)%N then heap_decrease_key s v k
      else if (old <? key32 k)%N then heap_increase_key s v k
      else Some s
  | None => None
  end.

(* one call; None = out-of-range access *)
Definition heap_step (s : heap) (o : qop) : option (heap * qres) :=
  match o with
  | QInsert v k => option_map (fun s' => (s', RUnit)) (heap_insert s v k)
  | QDeleteMax => match heap_delete_max s with
                  | Some (s', Some v) => Some (s', RNode v) | _ => None end
  | QDeleteNode v => option_map (fun s' => (s', RUnit)) (heap_delete_node s v)
  | QIncreaseKey v k => option_map (fun s' => (s', RUnit)) (heap_increase_key s v k)
  | QDecreaseKey v k => option_map (fun s' => (s', RUnit)) (heap_decrease_key s v k)
  | QChangeKey v k => option_map (fun s' => (s', RUnit)) (heap_change_key s v k)
  | QContains v => match nth_error (h_ix s) v with                          (* lines 247-249 *)
                   | Some (Some _) => Some (s, RBool true)
                   | Some None => Some (s, RBool false)
                   | None => None end
  | QGetKey v => option_map (fun p => (s, RKey (fst (hp s p)))) (heap_pos s v) (* lines 243-245 *)
  | QSize => Some (s, RNum (length (h_hp s)))                               (* lines 133-135 *)
  | QEmpty => Some (s, RBool (length (h_hp s) =? 0))                        (* lines 137-139 *)
  | QMaxElement => match h_hp s with [] => None | _ => Some (s, RNode (fst (el s (snd (hp s 0))))) end (* 69-71 *)
  | QMaxValue => match h_hp s with [] => None | _ => Some (s, RKey (fst (hp s 0))) end (* 65-67 *)
  end.

(* a history of calls; stops at an error *)
Fixpoint heap_run (s : heap) (os : list qop) : list qres :=
  match os with
  | [] => []
  | o :: os' => match heap_step s o with Some (s', r) => r :: heap_run s' os' | None => [] end
  end.
