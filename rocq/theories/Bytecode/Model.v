(** The compiled program, its wire encoding and the machine's reads of it:
    src/eval/stg/syntax.rs, src/eval/bytecode/{opcode,encode,program,machine}.rs. *)
From Coq Require Import List Bool Arith NArith.
From Verif.Simplify Require Import Compress.
Import ListNotations.
Open Scope N_scope.

(** Integer widths. Bytes, tags and arities are [u8]; code offsets, source-map identifiers and
    constant indices are [u32]; a Rust [as] cast keeps the low bits. *)
Definition u8 (n : N) : N := n mod 256.
Definition u32 (n : N) : N := n mod 4294967296.

(** opcode.rs 12-33, 66-98. *)
Definition op_atom := 1. Definition op_case := 2. Definition op_cons := 3.
Definition op_app := 4. Definition op_direct_app := 5. Definition op_bif := 6.
Definition op_let := 7. Definition op_letrec := 8. Definition op_ann := 9.
Definition op_meta := 10. Definition op_demeta := 11. Definition op_seq := 12.
Definition op_lookup_lit := 13. Definition op_black_hole := 14. Definition op_fused_primop := 15.
Definition ref_l := 0. Definition ref_g := 1. Definition ref_v := 2.
Definition flag_eager := 1.
Definition no_branch := 4294967295.
Definition form_lambda := 0. Definition form_thunk := 1. Definition form_value := 2.

Section Native.
(** Literals (numbers, strings, symbols, dates: stg/syntax.rs 25-60) are only copied into the
    constant pool, so their type is left open. *)
Context {native : Type}.

(** stg/syntax.rs 62-110: references. *)
Inductive ref := RL (i : N) | RG (i : N) | RV (n : native).

(** stg/syntax.rs 330-345: what a lambda form is, apart from its body. *)
Inductive fkind := FLambda (bound annotation : N) | FThunk | FValue.
Definition fk_arity (k : fkind) : N := match k with FLambda n _ => n | _ => 0 end.
Definition fk_annotation (k : fkind) : N := match k with FLambda _ a => a | _ => 0 end.
Definition fk_update (k : fkind) : bool := match k with FThunk => true | _ => false end.

(** stg/syntax.rs 111-228. A lambda form is its kind paired with its body. *)
Inductive syn :=
| SAtom (evaluand : ref)
| SCase (scrutinee : syn) (branches : list (N * syn)) (fallback : option syn)
| SCons (tag : N) (args : list ref)
| SApp (callable : ref) (args : list ref) (eager : bool)
| SDirectApp (smid : N) (callable : ref) (args : list ref) (eager : bool)
| SBif (intrinsic : N) (args : list ref)
| SLet (rec : bool) (bindings : list (fkind * syn)) (body : syn)
| SAnn (smid : N) (body : syn)
| SMeta (meta body : ref)
| SDeMeta (scrutinee handler or_else : syn)
| SSeq (scrutinee body : syn)
| SLookupLit (smid : N) (key obj default : ref)
| SFused (primop_id : N) (left right : ref) (inner : syn)
| SBlackHole.
Definition form : Type := fkind * syn.

(** encode.rs 52-55: the encoder's state. *)
Record enc := mkEnc { e_code : list N; e_consts : list native }.

(** A [u32], least significant byte first: [u32::to_le_bytes]. *)
Definition le32 (v : N) : list N := [v mod 256; v / 256 mod 256; v / 65536 mod 256; v / 16777216 mod 256].

(** encode.rs 67-77, 444-446. [emit_u8] receives a value already cast to [u8], as [emit_u32] one
    already cast to [u32]. *)
Definition emit (bs : list N) (s : enc) : enc := mkEnc (e_code s ++ bs) (e_consts s).
Definition here (s : enc) : N := u32 (N.of_nat (length (e_code s))).
(** encode.rs 84-88. *)
Definition add_constant (n : native) (s : enc) : N * enc :=
  (u32 (N.of_nat (length (e_consts s))), mkEnc (e_code s) (e_consts s ++ [n])).
(** encode.rs 91-107. *)
Definition emit_ref (r : ref) (s : enc) : enc :=
  match r with
  | RL i => emit (ref_l :: le32 (u32 i)) s
  | RG i => emit (ref_g :: le32 (u32 i)) s
  | RV n => let s := emit [ref_v] s in
            let '(ci, s) := add_constant n s in emit (le32 ci) s
  end.
(** encode.rs 111-116. *)
Definition emit_atom (r : ref) (s : enc) : N * enc :=
  (here s, emit_ref r (emit [op_atom] s)).

(** Running an action over a list, in order, collecting the results. *)
Definition smap {A B} (f : A -> enc -> B * enc) : list A -> enc -> list B * enc :=
  fix go l s :=
    match l with
    | [] => ([], s)
    | a :: l => let '(b, s) := f a s in let '(bs, s) := go l s in (b :: bs, s)
    end.

(** encode.rs 133-142. *)
Definition emit_fused_primop_refs (id : N) (left right : ref) (s : enc) : N * enc :=
  let '(left_off, s) := emit_atom left s in
  let '(right_off, s) := emit_atom right s in
  (here s, emit ([op_fused_primop; id] ++ le32 left_off ++ le32 right_off) s).
(** encode.rs 121-123. *)
Definition emit_fused_primop (id : N) (s : enc) : N * enc := emit_fused_primop_refs id (RL 0) (RL 1) s.
(** encode.rs 146-156. *)
Definition emit_arg_atoms (args : list ref) (s : enc) : list N * enc := smap emit_atom args s.
Definition arg_offsets (offs : list N) : list N := u8 (N.of_nat (length offs)) :: flat_map le32 offs.

(** encode.rs 486-494. *)
Definition classify (k : fkind) : N * N * N :=
  if fk_update k then (form_thunk, 0, fk_annotation k)
  else if fk_arity k =? 0 then (form_value, 0, fk_annotation k)
  else (form_lambda, fk_arity k, fk_annotation k).
(** encode.rs 159-165. *)
Definition form_header (k : fkind) (off : N) : list N :=
  let '(kind, arity, smid) := classify k in [kind; arity] ++ le32 smid ++ le32 off.
Definition form_headers {A} (bs : list (fkind * A)) (offs : list N) : list N :=
  flat_map (fun p => form_header (fst (fst p)) (snd p)) (combine bs offs).

(** encode.rs 376-395: the dense branch table. The subtractions are of [u8] values and cannot
    underflow, and writing at [tag - min_tag] is within the table. *)
Fixpoint set_nth (i : nat) (x : N) (l : list N) : list N :=
  match l, i with
  | [], _ => []
  | _ :: l, O => x :: l
  | y :: l, S i => y :: set_nth i x l
  end.
Definition min_tag (l : list (N * N)) : N :=
  match l with [] => 0 | p :: l => fold_left (fun m q => N.min m (fst q)) l (fst p) end.
Definition max_tag (l : list (N * N)) : N :=
  match l with [] => 0 | p :: l => fold_left (fun m q => N.max m (fst q)) l (fst p) end.
Definition dense_table (l : list (N * N)) : list N :=
  let len := N.to_nat (max_tag l - min_tag l) in
  fold_left (fun t p => set_nth (N.to_nat (fst p - min_tag l)) (snd p) t) l (repeat no_branch (S len)).
Definition branch_table (l : list (N * N)) : list N :=
  match l with
  | [] => [0; 0]
  | _ => [min_tag l; u8 (N.of_nat (length (dense_table l)))] ++ flat_map le32 (dense_table l)
  end.

Definition eager_flag (b : bool) : N := if b then flag_eager else 0.

(** encode.rs 170-372. The fields written after a node's opcode byte are grouped into single
    [emit]s; reading [here] between them never happens. *)
Fixpoint encode_node (t : syn) (s : enc) : N * enc :=
  match t with
  | SAtom r => emit_atom r s
  | SCase scr bs fb =>
      let '(scr_off, s) := encode_node scr s in
      let '(data, s) := smap (fun b s => let '(o, s) := encode_node (snd b) s in ((fst b, o), s)) bs s in
      let '(fb_off, s) := match fb with
                          | Some f => let '(o, s) := encode_node f s in (Some o, s)
                          | None => (None, s)
                          end in
      (here s, emit ([op_case] ++ le32 scr_off ++ branch_table data
                     ++ match fb_off with Some o => 1 :: le32 o | None => [0] end) s)
  | SCons tag args =>
      let '(offs, s) := emit_arg_atoms args s in
      (here s, emit ([op_cons; tag] ++ arg_offsets offs) s)
  | SApp callable args eager =>
      let '(offs, s) := emit_arg_atoms args s in
      (here s, emit (arg_offsets offs) (emit_ref callable (emit [op_app; eager_flag eager] s)))
  | SDirectApp smid callable args eager =>
      let '(offs, s) := emit_arg_atoms args s in
      (here s, emit (arg_offsets offs)
                 (emit_ref callable (emit ([op_direct_app; eager_flag eager] ++ le32 smid) s)))
  | SBif i args =>
      let '(offs, s) := emit_arg_atoms args s in
      (here s, emit ([op_bif; i] ++ arg_offsets offs) s)
  | SLet rec bs body =>
      let '(offs, s) := smap (fun b s => encode_node (snd b) s) bs s in
      let '(body_off, s) := encode_node body s in
      (here s, emit ([if rec then op_letrec else op_let] ++ le32 (u32 (N.of_nat (length bs)))
                     ++ form_headers bs offs ++ le32 body_off) s)
  | SAnn smid body =>
      let '(body_off, s) := encode_node body s in
      (here s, emit ([op_ann] ++ le32 smid ++ le32 body_off) s)
  | SMeta meta body =>
      let '(meta_off, s) := emit_atom meta s in
      let '(body_off, s) := emit_atom body s in
      (here s, emit ([op_meta] ++ le32 meta_off ++ le32 body_off) s)
  | SDeMeta scr handler or_else =>
      let '(scr_off, s) := encode_node scr s in
      let '(handler_off, s) := encode_node handler s in
      let '(or_else_off, s) := encode_node or_else s in
      (here s, emit ([op_demeta] ++ le32 scr_off ++ le32 handler_off ++ le32 or_else_off) s)
  | SSeq scr body =>
      let '(scr_off, s) := encode_node scr s in
      let '(body_off, s) := encode_node body s in
      (here s, emit ([op_seq] ++ le32 scr_off ++ le32 body_off) s)
  | SLookupLit smid key obj default =>
      let '(default_off, s) := emit_atom default s in
      (here s, emit (le32 default_off)
                 (emit_ref obj (emit_ref key (emit ([op_lookup_lit] ++ le32 smid) s))))
  | SFused id l r _ => emit_fused_primop_refs id l r s
  | SBlackHole => (here s, emit [op_black_hole] s)
  end.

(** stg/tags.rs 78-99: the number of fields of each of the eighteen data constructors, by tag. *)
Definition arities : list nat := [0; 0; 0; 1; 1; 1; 0; 2; 2; 2; 2; 1; 2; 3; 2; 2; 2; 1]%nat.
(** encode.rs 403-416. *)
Definition lrefs (from count : nat) : list ref := map (fun i => RL (N.of_nat i)) (seq from count).
Definition encode_templates (s : enc) : list N * enc :=
  smap (fun p s => encode_node (SCons (N.of_nat (fst p)) (lrefs 0 (snd p))) s)
       (combine (seq 0 (length arities)) arities) s.
(** program.rs 82-94, encode.rs 424-442. The table is filled row by row, so it is the list of the
    results in the order of the two loops. *)
Definition pap_max := 16%nat.
Definition pap_node (supplied pending : nat) : syn :=
  SApp (RL (N.of_nat pending)) (lrefs (pending + 1) supplied ++ lrefs 0 pending) false.
Definition pap_pairs : list (nat * nat) :=
  flat_map (fun supplied => map (fun pending => (supplied, pending)) (seq 1 pap_max)) (seq 1 pap_max).
Definition encode_pap_templates (s : enc) : list N * enc :=
  smap (fun p s => encode_node (pap_node (fst p) (snd p)) s) pap_pairs s.

(** encode.rs 36-49, program.rs 30-79. *)
Record gform := mkGform { g_kind : N; g_arity : N; g_smid : N; g_entry : N }.
Record fixtures := mkFixtures {
  x_templates : list N; x_blackhole : N; x_meta : N; x_pap : list N;
  x_apply1 : N; x_apply2 : N; x_producer : N; x_globals : list gform }.
Record program := mkProgram {
  p_code : list N; p_consts : list native; p_globals : list N; p_templates : list N;
  p_blackhole : N; p_meta : N; p_pap : list N; p_apply1 : N; p_apply2 : N; p_producer : N }.

(** stg/syntax.rs 234-240, encode.rs 481-483. *)
Definition is_fusible_body (t : syn) : bool :=
  match t with SCase (SAtom (RL 0)) _ _ => true | _ => false end.
Definition is_fusible_shape (f : form) : bool := (fk_arity (fst f) =? 2) && is_fusible_body (snd f).

Section Registry.
(** The static registry of intrinsics (src/eval/intrinsics.rs): the index of [PRODUCER_NEXT] and
    which indices are fusible. *)
Context (producer_next : N) (fusible : N -> bool).

(** encode.rs 545-569: one global. *)
Definition encode_global (i : N) (f : form) (s : enc) : gform * enc :=
  let '(entry, s) := if fusible i && is_fusible_shape f then emit_fused_primop (u8 i) s
                     else encode_node (snd f) s in
  let '(kind, arity, smid) := classify (fst f) in
  (mkGform kind arity smid entry, s).
(** encode.rs 515-582. *)
Definition emit_fixtures_and_globals (globals : list form) (s : enc) : fixtures * enc :=
  let '(templates, s) := encode_templates s in
  let blackhole := here s in
  let s := emit [op_black_hole] s in
  let '(meta, s) := encode_node (SMeta (RL 0) (RL 1)) s in
  let '(pap, s) := encode_pap_templates s in
  let '(apply1, s) := encode_node (SApp (RL 0) [RL 1] false) s in
  let '(apply2, s) := encode_node (SApp (RL 0) [RL 1; RL 2] false) s in
  let '(producer, s) := encode_node (SBif producer_next [RL 0]) s in
  let '(globals, s) := smap (fun p s => encode_global (N.of_nat (fst p)) (snd p) s)
                            (combine (seq 0 (length globals)) globals) s in
  (mkFixtures templates blackhole meta pap apply1 apply2 producer globals, s).
(** encode.rs 586-599. *)
Definition build_program (s : enc) (f : fixtures) : program :=
  mkProgram (e_code s) (e_consts s) (map g_entry (x_globals f)) (x_templates f)
    (x_blackhole f) (x_meta f) (x_pap f) (x_apply1 f) (x_apply2 f) (x_producer f).

(** encode.rs 632-641. *)
Definition encode (root : syn) (globals : list form) : program * N * list gform :=
  let '(f, s) := emit_fixtures_and_globals globals (mkEnc [] []) in
  let '(off, s) := encode_node root s in
  (build_program s f, off, x_globals f).
(** encode.rs 652-657. *)
Definition encode_prelude (globals : list form) : program * list gform :=
  let '(f, s) := emit_fixtures_and_globals globals (mkEnc [] []) in
  (build_program s f, x_globals f).
(** encode.rs 667-686. *)
Definition with_code (base : program) (s : enc) (globals : list N) : program :=
  mkProgram (e_code s) (e_consts s) globals (p_templates base) (p_blackhole base) (p_meta base)
    (p_pap base) (p_apply1 base) (p_apply2 base) (p_producer base).
Definition encode_root_onto (base : program) (root : syn) : program * N :=
  let '(off, s) := encode_node root (mkEnc (p_code base) (p_consts base)) in
  (with_code base s (p_globals base), off).
(** encode.rs 699-740. Patching a slot that does not exist does nothing. *)
Definition patch {A} (i : nat) (x : A) (l : list A) : list A :=
  match nth_error l i with
  | Some _ => firstn i l ++ x :: skipn (S i) l
  | None => l
  end.
Fixpoint encode_overrides (overrides : list (nat * form)) (entries : list N) (forms : list gform) (s : enc)
  : list N * list gform * enc :=
  match overrides with
  | [] => (entries, forms, s)
  | (slot, f) :: overrides =>
      let '(entry, s) := encode_node (snd f) s in
      let '(kind, arity, smid) := classify (fst f) in
      encode_overrides overrides (patch slot entry entries)
        (patch slot (mkGform kind arity smid entry) forms) s
  end.
Definition encode_overrides_and_root (base : program) (overrides : list (nat * form)) (forms : list gform)
    (root : syn) : program * N * list gform :=
  let '(entries, forms, s) := encode_overrides overrides (p_globals base) forms (mkEnc (p_code base) (p_consts base)) in
  let '(off, s) := encode_node root s in
  (with_code base s entries, off, forms).
End Registry.

(** encode.rs 610-623. *)
Definition code_fits (code : list N) : bool := N.of_nat (length code) <=? no_branch.
(** program.rs 83-93. *)
Definition pap_offset (p : program) (supplied pending : nat) : option N :=
  if (Nat.eqb supplied 0 || Nat.eqb pending 0 || Nat.ltb pap_max supplied || Nat.ltb pap_max pending)%bool
  then None
  else nth_error (p_pap p) ((supplied - 1) * pap_max + (pending - 1)).
End Native.
Arguments ref : clear implicits.
Arguments syn : clear implicits.
Arguments form : clear implicits.
Arguments enc : clear implicits.
Arguments program : clear implicits.

(** Reading: program.rs 133-156. Reading beyond the end of the code panics. *)
Definition read_u8 (code : list N) (pc : N) : outcome (N * N) :=
  match nth_error code (N.to_nat pc) with Some b => Done (b, pc + 1) | None => Panic end.
Definition read_u32 (code : list N) (pc : N) : outcome (N * N) :=
  obind (read_u8 code pc) (fun '(a, pc) =>
  obind (read_u8 code pc) (fun '(b, pc) =>
  obind (read_u8 code pc) (fun '(c, pc) =>
  obind (read_u8 code pc) (fun '(d, pc) =>
  Done (a + 256 * b + 65536 * c + 16777216 * d, pc))))).

(** machine.rs 74-98. An unknown tag is an error. *)
Inductive dref := DLocal (i : N) | DGlobal (i : N) | DValue (k : N).
Definition read_ref (code : list N) (pc : N) : outcome (dref * N) :=
  obind (read_u8 code pc) (fun '(tag, pc) =>
  obind (read_u32 code pc) (fun '(payload, pc) =>
  if tag =? ref_l then Done (DLocal payload, pc)
  else if tag =? ref_g then Done (DGlobal payload, pc)
  else if tag =? ref_v then Done (DValue payload, pc)
  else Error)).

(** Reading [n] items in sequence. *)
Fixpoint read_many {A} (rd : N -> outcome (A * N)) (n : nat) (pc : N) : outcome (list A * N) :=
  match n with
  | O => Done ([], pc)
  | S n => obind (rd pc) (fun '(a, pc) =>
           obind (read_many rd n pc) (fun '(l, pc) => Done (a :: l, pc)))
  end.
(** machine.rs 167-170. *)
Definition read_arg_offsets (code : list N) (pc : N) : outcome (list N * N) :=
  obind (read_u8 code pc) (fun '(n, pc) => read_many (read_u32 code) (N.to_nat n) pc).
(** machine.rs 173-194. *)
Record header (C : Type) := mkHeader { h_kind : N; h_arity : N; h_smid : N; h_body : C }.
Arguments mkHeader {C}.
Arguments h_kind {C}.
Arguments h_arity {C}.
Arguments h_smid {C}.
Arguments h_body {C}.
Definition read_form_header (code : list N) (pc : N) : outcome (header N * N) :=
  obind (read_u8 code pc) (fun '(kind, pc) =>
  obind (read_u8 code pc) (fun '(arity, pc) =>
  obind (read_u32 code pc) (fun '(smid, pc) =>
  obind (read_u32 code pc) (fun '(body, pc) =>
  Done (mkHeader kind arity smid body, pc))))).
(** machine.rs 199-214. *)
Definition entry_of (e : N) : option N := if e =? no_branch then None else Some e.
Definition read_branch_table (code : list N) (pc : N) : outcome (N * list (option N) * N) :=
  obind (read_u8 code pc) (fun '(min, pc) =>
  obind (read_u8 code pc) (fun '(len, pc) =>
  obind (read_many (read_u32 code) (N.to_nat len) pc) (fun '(es, pc) =>
  Done (min, map entry_of es, pc)))).
(** machine.rs 1851-1854. *)
Definition arg_ref (code : list N) (off : N) : outcome dref :=
  obind (read_ref code (off + 1)) (fun '(r, _) => Done r).
Definition arg_refs (code : list N) (offs : list N) : outcome (list dref) := collect (map (arg_ref code) offs).

(** What an instruction is, given a type [C] of code positions. Data-constructor, intrinsic and
    metadata operands are references; the arguments of a call are positions, since the machine
    makes closures over them. *)
Inductive node (C : Type) :=
| NAtom (r : dref)
| NCase (scrutinee : C) (min : N) (table : list (option C)) (fallback : option C)
| NCons (tag : N) (args : list dref)
| NApp (eager : bool) (callable : dref) (args : list C)
| NDirectApp (eager : bool) (smid : N) (callable : dref) (args : list C)
| NBif (intrinsic : N) (args : list dref)
| NLet (rec : bool) (bindings : list (header C)) (body : C)
| NAnn (smid : N) (body : C)
| NMeta (meta body : dref)
| NDeMeta (scrutinee handler or_else : C)
| NSeq (scrutinee body : C)
| NLookupLit (smid : N) (key obj : dref) (default : C)
| NFused (primop_id : N) (left right : C)
| NBlackHole.
Arguments NAtom {C}. Arguments NCase {C}. Arguments NCons {C}. Arguments NApp {C}.
Arguments NDirectApp {C}. Arguments NBif {C}. Arguments NLet {C}. Arguments NAnn {C}.
Arguments NMeta {C}. Arguments NDeMeta {C}. Arguments NSeq {C}. Arguments NLookupLit {C}.
Arguments NFused {C}. Arguments NBlackHole {C}.

Definition is_eager (flags : N) : bool := negb (N.land flags flag_eager =? 0).
(** The operand reads at the head of each arm of [handle_op], machine.rs 2047-2437. An unknown
    opcode byte is an error. *)
Definition read_node (code : list N) (off : N) : outcome (node N) :=
  obind (read_u8 code off) (fun '(op, pc) =>
  if op =? op_atom then obind (read_ref code pc) (fun '(r, _) => Done (NAtom r))
  else if op =? op_case then
    obind (read_u32 code pc) (fun '(scr, pc) =>
    obind (read_branch_table code pc) (fun '(min, table, pc) =>
    obind (read_u8 code pc) (fun '(has_fb, pc) =>
    if has_fb =? 1 then obind (read_u32 code pc) (fun '(fb, _) => Done (NCase scr min table (Some fb)))
    else Done (NCase scr min table None))))
  else if op =? op_cons then
    obind (read_u8 code pc) (fun '(tag, pc) =>
    obind (read_arg_offsets code pc) (fun '(offs, _) =>
    obind (arg_refs code offs) (fun args => Done (NCons tag args))))
  else if op =? op_app then
    obind (read_u8 code pc) (fun '(flags, pc) =>
    obind (read_ref code pc) (fun '(callable, pc) =>
    obind (read_arg_offsets code pc) (fun '(offs, _) =>
    Done (NApp (is_eager flags) callable offs))))
  else if op =? op_direct_app then
    obind (read_u8 code pc) (fun '(flags, pc) =>
    obind (read_u32 code pc) (fun '(smid, pc) =>
    obind (read_ref code pc) (fun '(callable, pc) =>
    obind (read_arg_offsets code pc) (fun '(offs, _) =>
    Done (NDirectApp (is_eager flags) smid callable offs)))))
  else if op =? op_bif then
    obind (read_u8 code pc) (fun '(i, pc) =>
    obind (read_arg_offsets code pc) (fun '(offs, _) =>
    obind (arg_refs code offs) (fun args => Done (NBif i args))))
  else if (op =? op_let) || (op =? op_letrec) then
    obind (read_u32 code pc) (fun '(count, pc) =>
    obind (read_many (read_form_header code) (N.to_nat count) pc) (fun '(hs, pc) =>
    obind (read_u32 code pc) (fun '(body, _) => Done (NLet (op =? op_letrec) hs body))))
  else if op =? op_ann then
    obind (read_u32 code pc) (fun '(smid, pc) =>
    obind (read_u32 code pc) (fun '(body, _) => Done (NAnn smid body)))
  else if op =? op_meta then
    obind (read_u32 code pc) (fun '(meta_off, pc) =>
    obind (read_u32 code pc) (fun '(body_off, _) =>
    obind (arg_ref code meta_off) (fun meta =>
    obind (arg_ref code body_off) (fun body => Done (NMeta meta body)))))
  else if op =? op_demeta then
    obind (read_u32 code pc) (fun '(scr, pc) =>
    obind (read_u32 code pc) (fun '(handler, pc) =>
    obind (read_u32 code pc) (fun '(or_else, _) => Done (NDeMeta scr handler or_else))))
  else if op =? op_seq then
    obind (read_u32 code pc) (fun '(scr, pc) =>
    obind (read_u32 code pc) (fun '(body, _) => Done (NSeq scr body)))
  else if op =? op_lookup_lit then
    obind (read_u32 code pc) (fun '(smid, pc) =>
    obind (read_ref code pc) (fun '(key, pc) =>
    obind (read_ref code pc) (fun '(obj, pc) =>
    obind (read_u32 code pc) (fun '(default, _) => Done (NLookupLit smid key obj default)))))
  else if op =? op_black_hole then Done NBlackHole
  else if op =? op_fused_primop then
    obind (read_u8 code pc) (fun '(id, pc) =>
    obind (read_u32 code pc) (fun '(l, pc) =>
    obind (read_u32 code pc) (fun '(r, _) => Done (NFused id l r))))
  else Error).

(** cont.rs 143-157: which branch a tag selects. *)
Definition match_tag {C} (min : N) (table : list (option C)) (tag : N) : option C :=
  if tag <? min then None
  else match nth_error table (N.to_nat (tag - min)) with Some e => e | None => None end.
