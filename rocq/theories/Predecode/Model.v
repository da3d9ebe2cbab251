(** Decoding the byte stream once into fixed-width instructions: src/eval/bytecode/predecode.rs. *)
From Coq Require Import List Bool Arith NArith.
From Verif.Simplify Require Import Compress.
From Verif.Bytecode Require Import Model.
Import ListNotations.
Open Scope N_scope.

Definition u16 (n : N) : N := n mod 65536.

(** predecode.rs 59-80. *)
Record instr := mkInstr { i_op : N; i_flags : N; i_len : N; i_a : N; i_b : N; i_c : N }.

(** predecode.rs 92-115. *)
Definition ref_tag (d : dref) : N := match d with DLocal _ => 0 | DGlobal _ => 1 | DValue _ => 2 end.
Definition ref_payload (d : dref) : N := match d with DLocal p => p | DGlobal p => p | DValue p => p end.
Definition make_ref (tag payload : N) : dref :=
  match N.land tag 3 with 0 => DLocal payload | 1 => DGlobal payload | _ => DValue payload end.

(** predecode.rs 117-178. *)
Definition atom_ref (i : instr) : dref := make_ref (i_flags i) (i_a i).
Definition eager (i : instr) : bool := negb (N.land (i_flags i) flag_eager =? 0).
Definition callable_ref (i : instr) : dref := make_ref (N.shiftr (i_flags i) 1) (i_a i).
Definition first_ref (i : instr) : dref := make_ref (i_flags i) (i_a i).
Definition second_ref (i : instr) : dref := make_ref (N.shiftr (i_flags i) 2) (i_b i).
Definition tag_byte (i : instr) : N := u8 (i_a i).

(** predecode.rs 252-268: the decoder's state. The hash map from offsets to ordinals is the list of
    its insertions, latest first: a key is only inserted after a failed lookup. The queue is a stack. *)
Record dec := mkDec {
  d_ord : list (N * N); d_off : list N; d_instrs : list (option instr); d_smids : list N;
  d_refs : list dref; d_offsets : list N; d_headers : list (header N); d_branches : list N;
  d_queue : list (N * N) }.
Definition empty_dec : dec := mkDec [] [] [] [] [] [] [] [] [].
Definition ord_lookup (m : list (N * N)) (off : N) : option N := option_map snd (find (fun p => fst p =? off) m).

(** Steps of the decoder: reads of the code and changes of the state. *)
Definition step (A : Type) : Type := dec -> outcome (A * dec).
Definition ret {A} (a : A) : step A := fun d => Done (a, d).
Definition bind {A B} (x : step A) (f : A -> step B) : step B := fun d => obind (x d) (fun '(a, d) => f a d).
Definition lift {A} (x : outcome A) : step A := fun d => obind x (fun a => Done (a, d)).
Notation "'do' x <- a ; b" := (bind a (fun x => b)) (at level 200, x pattern, a at level 100, b at level 200).
Notation "a ;; b" := (bind a (fun _ => b)) (at level 199, right associativity).

Fixpoint replace {A} (i : nat) (x : A) (l : list A) : list A :=
  match l, i with
  | [], _ => []
  | _ :: l, O => x :: l
  | y :: l, S i => y :: replace i x l
  end.
(** Indexing a vector out of its bounds panics. *)
Definition get_smid (ord : N) : step N := fun d =>
  match nth_error (d_smids d) (N.to_nat ord) with Some s => Done (s, d) | None => Panic end.
Definition set_smid (ord smid : N) : step unit := fun d =>
  match nth_error (d_smids d) (N.to_nat ord) with
  | Some _ => Done (tt, mkDec (d_ord d) (d_off d) (d_instrs d) (replace (N.to_nat ord) smid (d_smids d))
                              (d_refs d) (d_offsets d) (d_headers d) (d_branches d) (d_queue d))
  | None => Panic
  end.
Definition set_instr (ord : N) (i : instr) : step unit := fun d =>
  match nth_error (d_instrs d) (N.to_nat ord) with
  | Some _ => Done (tt, mkDec (d_ord d) (d_off d) (replace (N.to_nat ord) (Some i) (d_instrs d)) (d_smids d)
                              (d_refs d) (d_offsets d) (d_headers d) (d_branches d) (d_queue d))
  | None => Panic
  end.
Definition insert_ord (off ord : N) : step unit := fun d =>
  Done (tt, mkDec ((off, ord) :: d_ord d) (d_off d) (d_instrs d) (d_smids d) (d_refs d) (d_offsets d) (d_headers d)
                  (d_branches d) (d_queue d)).
(** predecode.rs 320-326. *)
Definition new_ordinal (off : N) : step N := fun d =>
  let ord := u32 (N.of_nat (length (d_instrs d))) in
  Done (ord, mkDec ((off, ord) :: d_ord d) (d_off d ++ [off]) (d_instrs d ++ [None]) (d_smids d ++ [0])
                   (d_refs d) (d_offsets d) (d_headers d) (d_branches d) ((off, ord) :: d_queue d)).
Definition push_ref (r : dref) : step unit := fun d =>
  Done (tt, mkDec (d_ord d) (d_off d) (d_instrs d) (d_smids d) (d_refs d ++ [r]) (d_offsets d) (d_headers d) (d_branches d) (d_queue d)).
Definition push_offset (o : N) : step unit := fun d =>
  Done (tt, mkDec (d_ord d) (d_off d) (d_instrs d) (d_smids d) (d_refs d) (d_offsets d ++ [o]) (d_headers d) (d_branches d) (d_queue d)).
Definition push_header (h : header N) : step unit := fun d =>
  Done (tt, mkDec (d_ord d) (d_off d) (d_instrs d) (d_smids d) (d_refs d) (d_offsets d) (d_headers d ++ [h]) (d_branches d) (d_queue d)).
Definition push_branch (b : N) : step unit := fun d =>
  Done (tt, mkDec (d_ord d) (d_off d) (d_instrs d) (d_smids d) (d_refs d) (d_offsets d) (d_headers d) (d_branches d ++ [b]) (d_queue d)).
(** The current length of a pool, as a [u32]. *)
Definition size_of {A} (pool : dec -> list A) : step N := fun d => Done (u32 (N.of_nat (length (pool d))), d).

Section Code.
Context (code : list N).

(** predecode.rs 302-327. The recursion follows a chain of annotation nodes; [fuel] is its depth, and
    running out stands for a stack overflow on a cyclic chain. *)
Fixpoint ordinal_for (fuel : nat) (off : N) : step N := fun d =>
  match ord_lookup (d_ord d) off with
  | Some ord => Done (ord, d)
  | None =>
      (do (op, pc) <- lift (read_u8 code off);
       if op =? op_ann then
         do (smid, pc) <- lift (read_u32 code pc);
         do (body_off, _) <- lift (read_u32 code pc);
         do body_ord <- match fuel with O => (fun _ => Panic) | S fuel => ordinal_for fuel body_off end;
         do old <- get_smid body_ord;
         (if old =? 0 then set_smid body_ord smid else ret tt);;
         insert_ord off body_ord;;
         ret body_ord
       else new_ordinal off) d
  end.

Section Depth.
Context (fuel : nat).
(** Running a step over a list in order. *)
Fixpoint each {A} (f : A -> step unit) (l : list A) : step unit :=
  match l with [] => ret tt | a :: l => f a;; each f l end.

(** predecode.rs 546-554. *)
Definition push_refs (offs : list N) : step (N * N) :=
  do start <- size_of d_refs;
  each (fun off => do r <- lift (arg_ref code off); push_ref r) offs;;
  ret (start, u16 (N.of_nat (length offs))).
(** predecode.rs 556-566. *)
Definition push_offsets (offs : list N) : step (N * N) :=
  do start <- size_of d_offsets;
  each (fun off => do ord <- ordinal_for fuel off; push_offset ord) offs;;
  ret (start, u16 (N.of_nat (length offs))).
(** predecode.rs 386-395: the loop over a branch table's entries. *)
Fixpoint push_branches (n : nat) (pc : N) : step N :=
  match n with
  | O => ret pc
  | S n =>
      do (e, pc) <- lift (read_u32 code pc);
      do mapped <- (if e =? no_branch then ret no_branch else ordinal_for fuel e);
      push_branch mapped;;
      push_branches n pc
  end.
(** predecode.rs 487-491: the loop over form headers. *)
Fixpoint push_headers (n : nat) (pc : N) : step N :=
  match n with
  | O => ret pc
  | S n =>
      do (h, pc) <- lift (read_form_header code pc);
      do body <- ordinal_for fuel (h_body h);
      push_header (mkHeader (h_kind h) (h_arity h) (h_smid h) body);;
      push_headers n pc
  end.

(** predecode.rs 330-544. *)
Definition decode_node (off ord : N) : step instr :=
  do (op, pc) <- lift (read_u8 code off);
  if op =? op_atom then
    do (r, _) <- lift (read_ref code pc);
    ret (mkInstr op (ref_tag r) 0 (ref_payload r) 0 0)
  else if op =? op_cons then
    do (tag, pc) <- lift (read_u8 code pc);
    do (offs, _) <- lift (read_arg_offsets code pc);
    do (start, len) <- push_refs offs;
    ret (mkInstr op 0 len tag 0 start)
  else if op =? op_bif then
    do (intrinsic, pc) <- lift (read_u8 code pc);
    do (offs, _) <- lift (read_arg_offsets code pc);
    do (start, len) <- push_refs offs;
    ret (mkInstr op 0 len intrinsic 0 start)
  else if op =? op_case then
    do (scr_off, pc) <- lift (read_u32 code pc);
    do scr <- ordinal_for fuel scr_off;
    do (min, pc) <- lift (read_u8 code pc);
    do (len, pc) <- lift (read_u8 code pc);
    do start <- size_of d_branches;
    do pc <- push_branches (N.to_nat len) pc;
    do (has_fb, pc) <- lift (read_u8 code pc);
    do fallback <- (if has_fb =? 1 then do (fb, _) <- lift (read_u32 code pc); ordinal_for fuel fb
                    else ret no_branch);
    ret (mkInstr op min (u16 len) scr fallback start)
  else if op =? op_seq then
    do (scr_off, pc) <- lift (read_u32 code pc);
    do scr <- ordinal_for fuel scr_off;
    do (body_off, _) <- lift (read_u32 code pc);
    do body <- ordinal_for fuel body_off;
    ret (mkInstr op 0 0 scr body 0)
  else if op =? op_ann then (fun _ => Panic)
  else if op =? op_fused_primop then
    do (id, pc) <- lift (read_u8 code pc);
    do (left_off, pc) <- lift (read_u32 code pc);
    do l_ord <- ordinal_for fuel left_off;
    do (right_off, _) <- lift (read_u32 code pc);
    do r_ord <- ordinal_for fuel right_off;
    ret (mkInstr op id 0 l_ord r_ord 0)
  else if op =? op_black_hole then ret (mkInstr op 0 0 0 0 0)
  else if op =? op_app then
    do (flags, pc) <- lift (read_u8 code pc);
    do (callable, pc) <- lift (read_ref code pc);
    do (offs, _) <- lift (read_arg_offsets code pc);
    do (start, len) <- push_offsets offs;
    ret (mkInstr op (N.lor (N.land flags flag_eager) (N.shiftl (ref_tag callable) 1)) len (ref_payload callable) 0 start)
  else if op =? op_direct_app then
    do (flags, pc) <- lift (read_u8 code pc);
    do (smid, pc) <- lift (read_u32 code pc);
    do (callable, pc) <- lift (read_ref code pc);
    do (offs, _) <- lift (read_arg_offsets code pc);
    do (start, len) <- push_offsets offs;
    set_smid ord smid;;
    ret (mkInstr op (N.lor (N.land flags flag_eager) (N.shiftl (ref_tag callable) 1)) len (ref_payload callable) 0 start)
  else if (op =? op_let) || (op =? op_letrec) then
    do (count, pc) <- lift (read_u32 code pc);
    do start <- size_of d_headers;
    do pc <- push_headers (N.to_nat count) pc;
    do (body_off, _) <- lift (read_u32 code pc);
    do body <- ordinal_for fuel body_off;
    ret (mkInstr op 0 0 body (u32 count) start)
  else if op =? op_meta then
    do (meta_off, pc) <- lift (read_u32 code pc);
    do (body_off, _) <- lift (read_u32 code pc);
    do meta <- lift (arg_ref code meta_off);
    do body <- lift (arg_ref code body_off);
    ret (mkInstr op (N.lor (ref_tag meta) (N.shiftl (ref_tag body) 2)) 0 (ref_payload meta) (ref_payload body) 0)
  else if op =? op_demeta then
    do (scr_off, pc) <- lift (read_u32 code pc);
    do scr <- ordinal_for fuel scr_off;
    do (handler_off, pc) <- lift (read_u32 code pc);
    do handler <- ordinal_for fuel handler_off;
    do (or_else_off, _) <- lift (read_u32 code pc);
    do or_else <- ordinal_for fuel or_else_off;
    ret (mkInstr op 0 0 scr handler or_else)
  else if op =? op_lookup_lit then
    do (smid, pc) <- lift (read_u32 code pc);
    do (key, pc) <- lift (read_ref code pc);
    do (obj, pc) <- lift (read_ref code pc);
    do (default_off, _) <- lift (read_u32 code pc);
    do default <- ordinal_for fuel default_off;
    set_smid ord smid;;
    ret (mkInstr op (N.lor (ref_tag key) (N.shiftl (ref_tag obj) 2)) 0 (ref_payload key) (ref_payload obj) default)
  else (fun _ => Error).

(** predecode.rs 568-575. [steps] bounds the number of iterations of the loop; running out never
    happens with the bound given below (theorem [C27_fuel]). *)
Definition pop : step (option (N * N)) := fun d =>
  match d_queue d with
  | [] => Done (None, d)
  | q :: queue => Done (Some q, mkDec (d_ord d) (d_off d) (d_instrs d) (d_smids d) (d_refs d) (d_offsets d) (d_headers d) (d_branches d) queue)
  end.
Fixpoint run (steps : nat) : step unit :=
  do q <- pop;
  match q with
  | None => ret tt
  | Some (off, ord) =>
      match steps with
      | O => fun _ => Panic
      | S steps => do i <- decode_node off ord; set_instr ord i;; run steps
      end
  end.
Fixpoint ordinals (offs : list N) : step (list N) :=
  match offs with
  | [] => ret []
  | off :: offs => do o <- ordinal_for fuel off; do os <- ordinals offs; ret (o :: os)
  end.
End Depth.
End Code.

(** predecode.rs 184-235. *)
Record decoded := mkDecoded {
  o_instrs : list instr; o_smids : list N; o_refs : list dref; o_offsets : list N;
  o_headers : list (header N); o_branches : list N;
  o_root : N; o_blackhole : N; o_templates : list N; o_meta : N; o_apply1 : N; o_apply2 : N; o_producer : N;
  o_pap : list N; o_globals : list N; o_off_of : list N; o_ord_of : list (N * N) }.

(** predecode.rs 591-653, with the depth of annotation chains and the number of iterations as
    parameters. *)
Definition decode_program_with {native} (depth steps : nat) (p : program native) (root : N) (globals : list gform) : outcome decoded :=
  let code := p_code p in
  let ordinal_for := ordinal_for code depth in
  let ordinals := ordinals code depth in
  obind ((do root_ord <- ordinal_for root;
          do global_entries <- ordinals (map g_entry globals);
          do templates <- ordinals (p_templates p);
          do blackhole <- ordinal_for (p_blackhole p);
          do meta <- ordinal_for (p_meta p);
          do apply1 <- ordinal_for (p_apply1 p);
          do apply2 <- ordinal_for (p_apply2 p);
          do producer <- ordinal_for (p_producer p);
          do pap <- ordinals (p_pap p);
          run code depth steps;;
          ret (fun d instrs => mkDecoded instrs (d_smids d) (d_refs d) (d_offsets d) (d_headers d) (d_branches d)
                 root_ord blackhole templates meta apply1 apply2 producer pap global_entries (d_off d) (d_ord d))) empty_dec)
    (fun '(build, d) =>
     obind (collect (map (fun o => match o with Some i => Done i | None => Panic end) (d_instrs d)))
       (fun instrs => Done (build d instrs))).
(** A chain of distinct annotation nodes is no longer than the code, and so is the work to be done. *)
Definition decode_program {native} (p : program native) (root : N) (globals : list gform) : outcome decoded :=
  decode_program_with (length (p_code p)) (length (p_code p)) p root globals.

(** machine.rs 2572-2902: what the pre-decoded dispatcher takes an instruction's operands to be. A
    range of a pool that is out of its bounds panics. *)
Definition slice {A} (l : list A) (start len : N) : outcome (list A) :=
  if start + len <=? N.of_nat (length l) then Done (firstn (N.to_nat len) (skipn (N.to_nat start) l)) else Panic.
Definition view (refs : list dref) (offsets : list N) (headers : list (header N)) (branches : list N)
    (smid : N) (i : instr) : outcome (node N) :=
  let op := i_op i in
  if op =? op_atom then Done (NAtom (atom_ref i))
  else if op =? op_cons then
    obind (slice refs (i_c i) (i_len i)) (fun args => Done (NCons (tag_byte i) args))
  else if op =? op_bif then
    obind (slice refs (i_c i) (i_len i)) (fun args => Done (NBif (tag_byte i) args))
  else if op =? op_case then
    obind (slice branches (i_c i) (i_len i)) (fun table =>
    Done (NCase (i_a i) (i_flags i) (map entry_of table) (entry_of (i_b i))))
  else if op =? op_seq then Done (NSeq (i_a i) (i_b i))
  else if op =? op_fused_primop then Done (NFused (i_flags i) (i_a i) (i_b i))
  else if op =? op_black_hole then Done NBlackHole
  else if op =? op_app then
    obind (slice offsets (i_c i) (i_len i)) (fun args => Done (NApp (eager i) (callable_ref i) args))
  else if op =? op_direct_app then
    obind (slice offsets (i_c i) (i_len i)) (fun args => Done (NDirectApp (eager i) smid (callable_ref i) args))
  else if (op =? op_let) || (op =? op_letrec) then
    obind (slice headers (i_c i) (i_b i)) (fun hs => Done (NLet (op =? op_letrec) hs (i_a i)))
  else if op =? op_meta then Done (NMeta (first_ref i) (second_ref i))
  else if op =? op_demeta then Done (NDeMeta (i_a i) (i_b i) (i_c i))
  else if op =? op_lookup_lit then Done (NLookupLit smid (first_ref i) (second_ref i) (i_c i))
  else Panic.
Definition view_at (D : decoded) (ord : N) : outcome (node N) :=
  match nth_error (o_instrs D) (N.to_nat ord), nth_error (o_smids D) (N.to_nat ord) with
  | Some i, Some smid => view (o_refs D) (o_offsets D) (o_headers D) (o_branches D) smid i
  | _, _ => Panic
  end.

(** The source location in force when the instruction at [off] acts. The byte dispatcher
    (machine.rs 2139-2144, 2227-2235, 2346-2351) sets it on each annotation it passes through, and on
    the two instructions that carry one; [fuel] bounds the passage through annotations. *)
Fixpoint byte_annotation (code : list N) (fuel : nat) (off ann : N) : outcome N :=
  obind (read_node code off) (fun n =>
  match n with
  | NAnn smid body => match fuel with O => Panic | S fuel => byte_annotation code fuel body smid end
  | NDirectApp _ smid _ _ => Done smid
  | NLookupLit smid _ _ _ => Done smid
  | _ => Done ann
  end).
(** machine.rs 2588-2599: the pre-decoded dispatcher sets it once, if the table has a valid one. *)
Definition instr_annotation (D : decoded) (ord ann : N) : outcome N :=
  match nth_error (o_smids D) (N.to_nat ord) with
  | Some smid => Done (if smid =? 0 then ann else smid)
  | None => Panic
  end.
