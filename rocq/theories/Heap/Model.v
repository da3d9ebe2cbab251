(** The heap and its collector: src/eval/memory/heap.rs and collect.rs.

    Memory is a finite map from object addresses to objects.  An address is a block
    (named by a number, standing for its base address) and the offset of the object
    inside it, just after its 16-byte header; an object occupies the bytes from the
    header to its payload's end.  Writing bytes destroys every object they overlap.
    [None] is undefined behaviour (a dangling pointer) or an internal error.

    Simplifications: an object's payload is a list of fields, all found by its scan
    (array backings, which the code has their owner scan, are ordinary objects here);
    the system allocator always provides fresh blocks; the choice of recycled block by
    floating-point score is an arbitrary function; metrics are left out. *)
From Coq Require Import NArith List Bool.
From Verif.Heap Require Import Lines.
Import ListNotations.
Local Open Scope N_scope.

Notation "'let*' p ':=' e 'in' k" := (match e with Some p => k | None => None end)
  (at level 200, p pattern, e at level 200, k at level 200).

Definition addr := (N * N)%type.
Definition addr_eqb (a b : addr) : bool := (fst a =? fst b) && (snd a =? snd b).

Inductive val := VData (n : N) | VPtr (a : addr).

(** [AllocHeader], header.rs 66-75, and the payload. *)
Record obj := mkObj { o_mark : bool; o_len : N; o_fwd : option addr; o_fields : list val }.

Definition HEADER : N := 16.

(** ** Object memory *)
Definition memory := list (addr * obj).
Definition mget (m : memory) (a : addr) : option obj :=
  option_map snd (find (fun e => addr_eqb (fst e) a) m).
Definition mset (m : memory) (a : addr) (o : obj) : memory :=
  map (fun e => if addr_eqb (fst e) a then (a, o) else e) m.
(** Overwriting bytes [lo, hi) of block [b]. *)
Definition overlaps (b lo hi : N) (e : addr * obj) : bool :=
  (fst (fst e) =? b) && (snd (fst e) - HEADER <? hi) && (lo <? snd (fst e) + o_len (snd e)).
Definition clobber (m : memory) (b lo hi : N) : memory :=
  filter (fun e => negb (overlaps b lo hi e)) m.
Definition clobber_all (m : memory) (b : N) (rs : list (N * N)) : memory :=
  fold_left (fun m r => clobber m b (fst r) (snd r)) rs m.

(** ** [HeapState], heap.rs 357-387 *)
Record heap := mkHeap {
  head : option bblock; overflow : option bblock;
  recycled : list bblock; rest : list bblock; unswept : list bblock;
  lobs : list N;
  evac_target : option bblock; filled : list bblock;
  mark_state : bool;
  fresh : N;            (* the next block the system allocator provides *)
  mem : memory }.

Definition heap_new : heap := mkHeap None None [] [] [] [] None [] false 0 [].

Definition set_mem (h : heap) (m : memory) : heap :=
  mkHeap (head h) (overflow h) (recycled h) (rest h) (unswept h) (lobs h) (evac_target h) (filled h)
         (mark_state h) (fresh h) m.
Definition set_head (h : heap) (b : bblock) : heap :=
  mkHeap (Some b) (overflow h) (recycled h) (rest h) (unswept h) (lobs h) (evac_target h) (filled h)
         (mark_state h) (fresh h) (mem h).
Definition set_overflow (h : heap) (b : bblock) : heap :=
  mkHeap (head h) (Some b) (recycled h) (rest h) (unswept h) (lobs h) (evac_target h) (filled h)
         (mark_state h) (fresh h) (mem h).
Definition set_target (h : heap) (b : option bblock) (f : list bblock) : heap :=
  mkHeap (head h) (overflow h) (recycled h) (rest h) (unswept h) (lobs h) b f
         (mark_state h) (fresh h) (mem h).

(** [BumpBlock::new], a fresh block from the system. *)
Definition new_block (h : heap) : heap * bblock :=
  (mkHeap (head h) (overflow h) (recycled h) (rest h) (unswept h) (lobs h) (evac_target h) (filled h)
          (mark_state h) (fresh h + 1) (mem h),
   block_new (fresh h)).

(** [SizeClass::for_size], heap.rs 345-354. *)
Inductive size_class := Small | Medium | Large.
Definition for_size (s : N) : size_class :=
  if s <? LINE then Small else if s <? BLOCK then Medium else Large.

Section Heap.
  (** Whether debug fills and poison writes happen, and the recycled-block choice. *)
  Variable dbg : bool.
  Variable choose : list bblock -> N -> option nat.

  (** [BumpBlock::bump] on a block of the heap, with the debug fill of bump.rs 303. *)
  Definition bump_in (h : heap) (b : bblock) (size : N) : heap * bblock * option N :=
    let '(b', r, fills) := bump b size in
    (set_mem h (if dbg then clobber_all (mem h) (base b) fills else mem h), b', r).
  (** [BumpBlock::recycle] with the poisoning of bump.rs 366-371. *)
  Definition recycle_in (m : memory) (b : bblock) : memory * bblock * bool :=
    let '(b', ok) := recycle b in
    ((if dbg && ok then clobber m (base b) (lower b') (cursor b') else m), b', ok).

  (** [head] and [overflow], heap.rs 435-454. *)
  Definition get_head (h : heap) : heap * bblock :=
    match head h with Some b => (h, b) | None => let '(h, b) := new_block h in (set_head h b, b) end.
  Definition get_overflow (h : heap) : heap * bblock :=
    match overflow h with Some b => (h, b) | None => let '(h, b) := new_block h in (set_overflow h b, b) end.

  (** [lazy_sweep_next], heap.rs 680-690: the memory, and the new recycled, rest and
      unswept lists. *)
  Fixpoint lazy_sweep (m : memory) (recycled rest unswept : list bblock)
    : memory * list bblock * list bblock * list bblock :=
    match unswept with
    | [] => (m, recycled, rest, [])
    | b :: us =>
        let '(m, b', ok) := recycle_in m b in
        if ok then (m, recycled ++ [b'], rest, us)
        else lazy_sweep m recycled (rest ++ [b']) us
    end.
  Definition lazy_sweep_next (h : heap) : heap :=
    let '(m, rc, rs, us) := lazy_sweep (mem h) (recycled h) (rest h) (unswept h) in
    mkHeap (head h) (overflow h) rc rs us (lobs h) (evac_target h) (filled h) (mark_state h) (fresh h) m.

  Definition remove_nth {A} (l : list A) (i : nat) : option (A * list A) :=
    let* x := nth_error l i in Some (x, firstn i l ++ skipn (S i) l).
  (** [find_best_recycled_block], heap.rs 501-528. *)
  Definition find_best (rs : list bblock) (size : N) : option (bblock * list bblock) :=
    match choose rs size with
    | Some i => remove_nth rs i
    | None => remove_nth rs 0
    end.

  Definition set_recycled (h : heap) (rs : list bblock) : heap :=
    mkHeap (head h) (overflow h) rs (rest h) (unswept h) (lobs h) (evac_target h) (filled h)
           (mark_state h) (fresh h) (mem h).
  Definition push_rest (h : heap) (b : bblock) : heap :=
    mkHeap (head h) (overflow h) (recycled h) (rest h ++ [b]) (unswept h) (lobs h) (evac_target h) (filled h)
           (mark_state h) (fresh h) (mem h).
  (** [self.head.replace(replacement)], pushing the old head onto [rest]. *)
  Definition swap_head (h : heap) (b : bblock) : heap :=
    match head h with
    | Some old => set_head (push_rest h old) b
    | None => set_head h b
    end.
  Definition swap_overflow (h : heap) (b : bblock) : heap :=
    match overflow h with
    | Some old => set_overflow (push_rest h old) b
    | None => set_overflow h b
    end.
  (** [replace_head_targeted], heap.rs 472-499. *)
  Definition replace_head_targeted (h : heap) (size : N) : heap * bblock :=
    let h := match recycled h with [] => lazy_sweep_next h | _ => h end in
    let '(h, b) :=
      match recycled h with
      | [] => new_block h
      | b0 :: bs =>
          if size =? 0 then (set_recycled h bs, b0)
          else match find_best (recycled h) size with
               | Some (b, rs) => (set_recycled h rs, b)
               | None => new_block h
               end
      end in
    (swap_head h b, b).
  (** [replace_overflow], heap.rs 530-538. *)
  Definition replace_overflow (h : heap) : heap * bblock :=
    let '(h, b) := new_block h in (swap_overflow h b, b).

  (** [try_allocate], heap.rs 2378-2407; [None] is the out-of-memory error.  Large
      object blocks are never recycled (heap.rs 584 is called only by tests). *)
  Definition try_allocate (h : heap) (size : N) : heap * option addr :=
    let '(h, hd) := get_head h in
    let on_head :=
      let '(h, b, r) := bump_in h hd size in
      let h := set_head h b in
      match r with
      | Some o => (h, Some (base b, o))
      | None =>
          let '(h, b) := replace_head_targeted h size in
          let '(h, b, r) := bump_in h b size in
          (set_head h b, match r with Some o => Some (base b, o) | None => None end)
      end in
    match for_size size with
    | Large =>
        (mkHeap (head h) (overflow h) (recycled h) (rest h) (unswept h) (lobs h ++ [fresh h])
                (evac_target h) (filled h) (mark_state h) (fresh h + 1) (mem h),
         Some (fresh h, 0))
    | Medium =>
        if current_hole_size hd <? size then
          let '(h, ov) := get_overflow h in
          let '(h, b, r) := bump_in h ov size in
          let h := set_overflow h b in
          match r with
          | Some o => (h, Some (base b, o))
          | None =>
              let '(h, b) := replace_overflow h in
              let '(h, b, r) := bump_in h b size in
              (set_overflow h b, match r with Some o => Some (base b, o) | None => None end)
          end
        else on_head
    | Small => on_head
    end.

  (** [alloc_size_of], heap.rs 2521-2526. *)
  Definition alloc_size_of (total : N) : N := (total + 15) / 16 * 16.

  (** [alloc] / [alloc_bytes], heap.rs 2222-2290: find space, write header and payload
      there. *)
  Definition alloc (h : heap) (bytes : N) (fields : list val) : heap * option addr :=
    let '(h, r) := try_allocate h (alloc_size_of (HEADER + bytes)) in
    match r with
    | Some (b, o) =>
        let a := (b, o + HEADER) in
        let m := clobber (mem h) b o (o + HEADER + bytes) in
        (set_mem h ((a, mkObj (negb (mark_state h)) bytes None fields) :: m), Some a)
    | None => (h, None)
    end.

  (** ** Collection *)

  (** Applying [f] to every block of the heap; with distinct bases this is the search
      of [mark_region_in_block], heap.rs 759-822. *)
  Definition map_blocks (f : bblock -> bblock) (h : heap) : heap :=
    mkHeap (option_map f (head h)) (option_map f (overflow h)) (map f (recycled h)) (map f (rest h))
           (map f (unswept h)) (lobs h) (option_map f (evac_target h)) (map f (filled h))
           (mark_state h) (fresh h) (mem h).
  Definition mark_region_in_block (h : heap) (b off bytes : N) : heap :=
    map_blocks (fun k => if base k =? b then mark_region k off bytes else k) h.
  (** [reset_region_marks], heap.rs 2589-2620: the evacuation blocks are not reset. *)
  Definition reset_region_marks (h : heap) : heap :=
    mkHeap (option_map reset_marks (head h)) (option_map reset_marks (overflow h))
           (map reset_marks (recycled h)) (map reset_marks (rest h)) (map reset_marks (unswept h))
           (lobs h) (evac_target h) (filled h) (mark_state h) (fresh h) (mem h).

  Definition set_mark (ms : bool) (o : obj) : obj := mkObj ms (o_len o) (o_fwd o) (o_fields o).
  (** [CollectorHeapView::mark], collect.rs 157-205, with [mark_object] (heap.rs
      2663-2674) and [mark_line] (2731-2745). *)
  Definition mark (h : heap) (a : addr) : option (heap * bool) :=
    let* o := mget (mem h) a in
    if eqb (o_mark o) (mark_state h) then Some (h, false)
    else
      let h := set_mem h (mset (mem h) a (set_mark (mark_state h) o)) in
      Some (mark_region_in_block h (fst a) (snd a - HEADER) (HEADER + o_len o), true).

  (** A scan: mark each field's target, queueing those newly marked. *)
  Fixpoint scan (h : heap) (fs : list val) : option (heap * list addr) :=
    match fs with
    | [] => Some (h, [])
    | VData _ :: fs' => scan h fs'
    | VPtr a :: fs' =>
        let* (h, new) := mark h a in
        let* (h, q) := scan h fs' in
        Some (h, if (new : bool) then a :: q else q)
    end.

  (** [bump_allocate_in_target], heap.rs 608-633. *)
  Definition bump_allocate_in_target (h : heap) (size : N) : heap * option addr :=
    let retry (h : heap) :=
      let h := match evac_target h with
               | Some full => set_target h None (filled h ++ [full])
               | None => h
               end in
      let '(h, b) := new_block h in
      let '(h, b, r) := bump_in h b size in
      (set_target h (Some b) (filled h), match r with Some o => Some (base b, o) | None => None end) in
    match evac_target h with
    | Some t =>
        let '(h, t, r) := bump_in h t size in
        let h := set_target h (Some t) (filled h) in
        match r with
        | Some o => (h, Some (base t, o))
        | None => retry h
        end
    | None => retry h
    end.

  (** [evacuate], collect.rs 290-385: copy header and payload, forward the old header,
      mark the copy. *)
  Definition evacuate (h : heap) (a : addr) : option heap :=
    let* o := mget (mem h) a in
    match o_fwd o with
    | Some _ => Some h
    | None =>
        let '(h, r) := bump_allocate_in_target h ((HEADER + o_len o + 15) / 16 * 16) in
        match r with
        | None => Some h
        | Some (b, off) =>
            let a' := (b, off + HEADER) in
            let m := clobber (mem h) b off (off + HEADER + o_len o) in
            let* o := mget m a in
            let copy := mkObj (mark_state h) (o_len o) None (o_fields o) in
            let m := mset ((a', copy) :: m) a (mkObj (o_mark o) (o_len o) (Some a') (o_fields o)) in
            Some (mark_region_in_block (set_mem h m) b off (HEADER + o_len o))
        end
    end.

  (** [is_in_candidate_block], heap.rs 2634-2650. *)
  Definition candidate_base (h : heap) (idx : nat) : option N :=
    match idx with
    | O => option_map base (head h)
    | S O => option_map base (overflow h)
    | S (S n) => option_map base (nth_error (rest h) n)
    end.
  Definition is_candidate (h : heap) (cands : list nat) (b : N) : bool :=
    existsb (fun i => match candidate_base h i with Some b' => b' =? b | None => false end) cands.
  (** [try_evacuate], collect.rs 735-752; [pinned] lists the pinned blocks. *)
  Definition try_evacuate (h : heap) (cands : list nat) (pinned : list N) (a : addr) : option heap :=
    if is_candidate h cands (fst a) && negb (existsb (N.eqb (fst a)) pinned) then evacuate h a else Some h.

  (** The marking loop, collect.rs 437-440 and 551-569: the objects visited. *)
  Fixpoint trace (fuel : nat) (cands : list nat) (pinned : list N) (h : heap) (queue visited : list addr)
    : option (heap * list addr) :=
    match queue with
    | [] => Some (h, visited)
    | a :: queue' =>
        match fuel with
        | O => None
        | S fuel' =>
            let* h := try_evacuate h cands pinned a in
            let* o := mget (mem h) a in
            let* (h, q) := scan h (o_fields o) in
            trace fuel' cands pinned h (queue' ++ q) (visited ++ [a])
        end
    end.

  (** [forwarded_to], collect.rs 264-284. *)
  Definition forward_val (m : memory) (v : val) : option val :=
    match v with
    | VData n => Some (VData n)
    | VPtr a => let* o := mget m a in
                Some (match o_fwd o with Some a' => VPtr a' | None => VPtr a end)
    end.
  Fixpoint forward_vals (m : memory) (vs : list val) : option (list val) :=
    match vs with
    | [] => Some []
    | v :: vs' => let* v' := forward_val m v in
                  let* vs'' := forward_vals m vs' in Some (v' :: vs'')
    end.
  (** [scan_and_update] of one visited object, at its new place if it moved
      (collect.rs 601-650). *)
  Definition update_obj (m : memory) (a : addr) : option memory :=
    let* o := mget m a in
    let target := match o_fwd o with Some a' => a' | None => a end in
    let* t := mget m target in
    let* fs := forward_vals m (o_fields t) in
    Some (mset m target (mkObj (o_mark t) (o_len t) (o_fwd t) fs)).
  Fixpoint update_all (m : memory) (visited : list addr) : option memory :=
    match visited with
    | [] => Some m
    | a :: vs => let* m := update_obj m a in update_all m vs
    end.

  (** [finalise_evacuation], heap.rs 635-642, [defer_sweep], 674-676, and the flip of
      the mark state. *)
  Definition finalise_evacuation (h : heap) : heap :=
    mkHeap (head h) (overflow h) (recycled h)
           (rest h ++ (match evac_target h with Some t => [t] | None => [] end) ++ filled h)
           (unswept h) (lobs h) None [] (mark_state h) (fresh h) (mem h).
  Definition defer_sweep (h : heap) : heap :=
    mkHeap (head h) (overflow h) (recycled h) [] (unswept h ++ rest h) (lobs h) (evac_target h) (filled h)
           (mark_state h) (fresh h) (mem h).
  Definition flip_mark_state (h : heap) : heap :=
    mkHeap (head h) (overflow h) (recycled h) (rest h) (unswept h) (lobs h) (evac_target h) (filled h)
           (negb (mark_state h)) (fresh h) (mem h).

  (** The mark phase from the roots. *)
  Definition mark_phase (cands : list nat) (pinned : list N) (h : heap) (roots : list val)
    : option (heap * list addr) :=
    let h := reset_region_marks h in
    let* (h, q) := scan h roots in
    trace (length (mem h)) cands pinned h q [].

  (** [collect_mark_in_place], collect.rs 411-468. *)
  Definition collect_mark_in_place (h : heap) (roots : list val) : option heap :=
    let* (h, _) := mark_phase [] [] h roots in
    Some (flip_mark_state (defer_sweep h)).

  (** [collect_with_evacuation], collect.rs 512-680. *)
  Definition collect_with_evacuation (cands : list nat) (pinned : list N) (h : heap) (roots : list val)
    : option (heap * list val) :=
    let* (h, visited) := mark_phase cands pinned h roots in
    let* roots := forward_vals (mem h) roots in
    let* m := update_all (mem h) visited in
    Some (flip_mark_state (defer_sweep (finalise_evacuation (set_mem h m))), roots).

  (** [collect], collect.rs 390-400; the candidates come from the strategy analysis. *)
  Definition collect (cands : list nat) (pinned : list N) (h : heap) (roots : list val)
    : option (heap * list val) :=
    match cands with
    | [] => let* h := collect_mark_in_place h roots in Some (h, roots)
    | _ => collect_with_evacuation cands pinned h roots
    end.

  (** ** A mutator program over the heap: its registers are the roots *)
  Inductive op :=
  | OData (n : N)                       (* a constant into a new register *)
  | OAlloc (bytes : N) (rs : list nat)  (* a new object whose fields are registers *)
  | OLoad (r i : nat)                   (* a field into a new register *)
  | OStore (r i s : nat)                (* a register into a field *)
  | ODrop (r : nat)                     (* forget a register *)
  | OShow (r : nat)                     (* observe a register *)
  | OSame (r s : nat)                   (* observe whether two registers hold one object *)
  | OCollect (cands : list nat) (pinned : list N).
  Inductive obs := BNone | BData (n : N) | BPtr | BSame (b : bool) | BErr.

  Fixpoint list_set {A} (l : list A) (i : nat) (x : A) : list A :=
    match l, i with
    | [], _ => []
    | _ :: l', O => x :: l'
    | y :: l', S i' => y :: list_set l' i' x
    end.
  Fixpoint gather {A} (l : list A) (is : list nat) : option (list A) :=
    match is with
    | [] => Some []
    | i :: is' => let* x := nth_error l i in let* xs := gather l is' in Some (x :: xs)
    end.

  Definition machine := (heap * list val)%type.
  (** [None] is undefined behaviour; [BErr] an operation refused (no such register or
      field, data used as an object, a payload over [u32::MAX]). *)
  Definition step (s : machine) (o : op) : option (machine * obs) :=
    let '(h, roots) := s in
    match o with
    | OData n => Some ((h, roots ++ [VData n]), BNone)
    | OAlloc bytes rs =>
        if 4294967295 <? bytes then Some (s, BErr)
        else match gather roots rs with
             | None => Some (s, BErr)
             | Some fs =>
                 let '(h, r) := alloc h bytes fs in
                 let* a := r in Some ((h, roots ++ [VPtr a]), BNone)
             end
    | OLoad r i =>
        match nth_error roots r with
        | Some (VPtr a) =>
            let* o := mget (mem h) a in
            match nth_error (o_fields o) i with
            | Some v => Some ((h, roots ++ [v]), BNone)
            | None => Some (s, BErr)
            end
        | _ => Some (s, BErr)
        end
    | OStore r i t =>
        match nth_error roots r, nth_error roots t with
        | Some (VPtr a), Some v =>
            let* o := mget (mem h) a in
            Some ((set_mem h (mset (mem h) a (mkObj (o_mark o) (o_len o) (o_fwd o) (list_set (o_fields o) i v))), roots), BNone)
        | _, _ => Some (s, BErr)
        end
    | ODrop r => Some ((h, list_set roots r (VData 0)), BNone)
    | OShow r =>
        match nth_error roots r with
        | Some (VData n) => Some (s, BData n)
        | Some (VPtr _) => Some (s, BPtr)
        | None => Some (s, BErr)
        end
    | OSame r t =>
        match nth_error roots r, nth_error roots t with
        | Some (VPtr a), Some (VPtr b) => Some (s, BSame (addr_eqb a b))
        | _, _ => Some (s, BErr)
        end
    | OCollect cands pinned =>
        let* (h, roots) := collect cands pinned h roots in Some ((h, roots), BNone)
    end.
  Fixpoint run (s : machine) (os : list op) : option (machine * list obs) :=
    match os with
    | [] => Some (s, [])
    | o :: os' => let* (s1, v) := step s o in
                  let* (s2, vs) := run s1 os' in Some (s2, v :: vs)
    end.
End Heap.
