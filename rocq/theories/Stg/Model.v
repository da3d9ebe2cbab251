(** The code of intrinsics that are written in the machine's own language: the wrappers in
    src/eval/stg/{boolean,list,block,eq,force,meta,wrap}.rs, transcribed node by node. Locals are
    numbered from the innermost scope outwards, as there. What this code does is given by the
    by-name semantics of [Verif.Machine], which the machine agrees with. *)
From Coq Require Import List Bool Arith NArith.
From Verif.Bytecode Require Import Model.
Import ListNotations.
Open Scope N_scope.

(** stg/tags.rs 12-46. *)
Definition unit_tag := 0. Definition true_tag := 1. Definition false_tag := 2.
Definition number_tag := 3. Definition symbol_tag := 4. Definition string_tag := 5.
Definition nil_tag := 6. Definition cons_tag := 7. Definition block_tag := 8.
Definition pair_tag := 9. Definition kv_list_tag := 10. Definition zdt_tag := 11.
Definition clause_tag := 16. Definition type_data_tag := 17.

(** eval/intrinsics.rs 48-1080: positions in the table of intrinsics, which number globals and
    intrinsics alike. *)
Definition ix_lookup := 0. Definition ix_lookup_or := 1. Definition ix_if := 10. Definition ix_eq := 11.
Definition ix_panic := 18. Definition ix_block := 19. Definition ix_kv := 20. Definition ix_matches_key := 21.
Definition ix_extract_value := 22. Definition ix_and := 23. Definition ix_or := 24. Definition ix_not := 25.
Definition ix_lookup_or_unboxed := 39. Definition ix_cons := 40. Definition ix_nil := 41.
Definition ix_head := 42. Definition ix_tail := 43. Definition ix_elements := 46.
Definition ix_with_meta := 48. Definition ix_seq_str_list := 66. Definition ix_dekv := 67.
Definition ix_extract_key := 68. Definition ix_pack_pair := 69. Definition ix_block_pair := 70.
Definition ix_empty_block := 83. Definition ix_raw_meta := 105. Definition ix_lookup_fail := 107.
Definition ix_seq_num_list := 112. Definition ix_safe_lookup := 178.
Definition ix_head_empty := 186. Definition ix_tail_empty := 187. Definition ix_cond := 188.
Definition ix_clause := 189. Definition ix_nilp := 190. Definition ix_seq_spine := 198.

Section Wrappers.
Context {native : Type}.
Notation ref := (ref native).
Notation syn := (syn native).
Notation form := (form native).
(** The number 0, and the texts of panics, as natives. *)
Variable zero : native.
Variable message : N -> native.

(** stg/syntax.rs 400-704: the combinators the wrappers are written with. *)
Definition lref (i : N) : ref := RL i.
Definition local (i : N) : syn := SAtom (RL i).
Definition data (tag : N) (args : list ref) : syn := SCons tag args.
Definition app (r : ref) (args : list ref) : syn := SApp r args false.
(** machine/intrinsic.rs 395-438. *)
Definition call (i : N) (args : list ref) : syn := app (RG i) args.
Definition app_bif (i : N) (args : list ref) : syn := SBif i args.
Definition case (s : syn) (bs : list (N * syn)) (fallback : syn) : syn := SCase s bs (Some fallback).
Definition switch (s : syn) (bs : list (N * syn)) : syn := SCase s bs None.
Definition force (s then_ : syn) : syn := case s [] then_.
Definition let_ (fs : list form) (body : syn) : syn := SLet false fs body.
Definition letrec_ (fs : list form) (body : syn) : syn := SLet true fs body.
Definition lambda (n : N) (body : syn) : form := (FLambda n 0, body).
Definition thunk (body : syn) : form := (FThunk, body).
Definition value_ (body : syn) : form := (FValue, body).
Definition unbox_num (s then_ : syn) : syn := case s [(number_tag, then_)] then_.
Definition unbox_str (s then_ : syn) : syn := switch s [(string_tag, then_)].
Definition unbox_sym (s then_ : syn) : syn := switch s [(symbol_tag, then_)].
Definition unbox_zdt (s then_ : syn) : syn := switch s [(zdt_tag, then_)].
Definition t : syn := data true_tag []. Definition f : syn := data false_tag [].
Definition unit_ : syn := data unit_tag []. Definition nil_ : syn := data nil_tag [].
Definition panic (i : N) : syn := app_bif ix_panic [RV (message i)].

(** boolean.rs 46-61, 69-93, 101-125, 133-149, 156-166, 195-246. *)
Definition not_ : form := lambda 1 (switch (local 0) [(false_tag, t); (true_tag, f)]).
Definition and_ : form :=
  lambda 2 (switch (local 0)
    [(true_tag, switch (local 1) [(true_tag, t); (false_tag, f)]);
     (false_tag, f)]).
Definition or_ : form :=
  lambda 2 (switch (local 0)
    [(false_tag, switch (local 1) [(true_tag, t); (false_tag, f)]);
     (true_tag, t)]).
Definition if_ : form := lambda 3 (switch (local 0) [(true_tag, local 1); (false_tag, local 2)]).
Definition clause : form := lambda 2 (data clause_tag [lref 0; lref 1]).
Definition cond : form :=
  lambda 1 (case (local 0)
    [(nil_tag, unit_);
     (cons_tag,
       case (local 0)
         [(clause_tag, switch (local 0) [(true_tag, local 1); (false_tag, call ix_cond [lref 3])])]
         (local 0))]
    unit_).

(** list.rs 30-41, 48-56, 63-77, 96-110, 180-192. *)
Definition cons_ : form := lambda 2 (data cons_tag [lref 0; lref 1]).
Definition nil_form : form := value_ (data nil_tag []).
Definition tail : form :=
  lambda 1 (case (local 0) [(cons_tag, local 1); (nil_tag, call ix_tail_empty [])] (app_bif ix_tail [lref 0])).
Definition head : form :=
  lambda 1 (case (local 0) [(cons_tag, local 0); (nil_tag, call ix_head_empty [])] (app_bif ix_head [lref 0])).
Definition nilp : form := lambda 1 (case (local 0) [(nil_tag, t)] f).

(** block.rs 47-84. *)
Definition kv_items : form :=
  lambda 2 (switch (local 0)
    [(cons_tag,
       force (call ix_kv [lref 0])
         (force (app (lref 4) [lref 2; lref 4])
            (data cons_tag [lref 1; lref 0])));
     (nil_tag, local 0)]).
Definition block : form :=
  lambda 1 (letrec_ [kv_items; value_ (app (lref 0) [lref 2; lref 0])]
              (data block_tag [lref 1; RV zero])).
(** block.rs 99-124. *)
Definition kv : form :=
  lambda 1 (case (local 0)
    [(pair_tag, local 2); (cons_tag, data kv_list_tag [lref 2]); (kv_list_tag, local 1)]
    (panic 0)).
(** block.rs 138-170. *)
Definition dekv : form :=
  lambda 1 (case (local 0)
    [(pair_tag,
       letrec_ [value_ nil_; thunk (data symbol_tag [lref 3]); value_ (data cons_tag [lref 4; lref 0])]
         (data cons_tag [lref 1; lref 2]));
     (kv_list_tag, local 0)]
    (panic 1)).
(** block.rs 184-224. *)
Definition map_list : form :=
  lambda 2 (case (local 0)
    [(cons_tag,
       letrec_ [thunk (call ix_dekv [lref 2]); thunk (app (lref 5) [lref 3; lref 5])]
         (data cons_tag [lref 0; lref 1]));
     (nil_tag, local 0)]
    (panic 2)).
Definition elements : form :=
  lambda 1 (letrec_ [map_list]
    (case (local 1) [(block_tag, app (lref 2) [lref 0; lref 2])] (panic 3))).
(** block.rs 238-268. *)
Definition matches_key : form :=
  lambda 2 (case (local 0)
    [(pair_tag, call ix_eq [lref 0; lref 3]);
     (kv_list_tag,
       case (local 0)
         [(cons_tag, unbox_sym (local 0) (call ix_eq [lref 0; lref 5]))]
         f)]
    (panic 4)).
(** block.rs 282-314. *)
Definition extract_value : form :=
  lambda 1 (case (local 0)
    [(pair_tag, local 1);
     (kv_list_tag, switch (local 0) [(cons_tag, switch (local 1) [(cons_tag, local 0)])])]
    (panic 5)).
(** block.rs 328-370. *)
Definition extract_key : form :=
  lambda 1 (case (local 0)
    [(pair_tag, local 0);
     (kv_list_tag, switch (local 0) [(cons_tag, case (local 0) [(symbol_tag, local 0)] (local 0))])]
    (panic 6)).
(** block.rs 385-395. *)
Definition pack_pair : form := lambda 1 (force (call ix_extract_key [lref 0]) (data pair_tag [lref 0; lref 1])).
(** block.rs 409-456. *)
Definition block_pair : form :=
  lambda 1 (switch (local 0)
    [(pair_tag, local 2);
     (kv_list_tag,
       switch (local 0)
         [(cons_tag,
            switch (local 1)
              [(cons_tag, force (call ix_extract_key [lref 5]) (data pair_tag [lref 0; lref 1]))])])]).
(** block.rs 477-591. The intrinsic call that scrutinises the block's index always returns the empty
    list (593-612), whatever its arguments: it is replaced by that list. *)
Definition no_index : syn := nil_.
Definition find_form : form :=
  lambda 4 (case (local 0)
    [(cons_tag,
       switch (call ix_matches_key [lref 0; lref 3])
         [(true_tag, call ix_extract_value [lref 0]);
          (false_tag, app (lref 5) [lref 1; lref 3; lref 4; lref 5])]);
     (nil_tag, local 2)]
    (panic 7)).
Definition lookup_or_unboxed : form :=
  lambda 3 (switch (local 2)
    [(block_tag,
       letrec_ [find_form]
         (case no_index
            [(cons_tag, local 0);
             (nil_tag, app (lref 0) [lref 1; lref 3; lref 4; lref 0])]
            (app (lref 1) [lref 2; lref 4; lref 5; lref 1])))]).
Definition lookup_or : form :=
  lambda 3 (switch (local 2)
    [(block_tag,
       letrec_ [find_form]
         (unbox_sym (local 3)
            (case no_index
               [(cons_tag, local 0);
                (nil_tag, app (lref 1) [lref 2; lref 0; lref 5; lref 1])]
               (app (lref 2) [lref 3; lref 1; lref 6; lref 2]))))]).
(** block.rs 632-747: [SAFE_LOOKUP] with a boxed key; the index as above. *)
Definition safe_find : form :=
  lambda 3 (case (local 0)
    [(cons_tag,
       switch (call ix_matches_key [lref 0; lref 3])
         [(true_tag, call ix_extract_value [lref 0]);
          (false_tag, app (lref 4) [lref 1; lref 3; lref 4])]);
     (nil_tag, unit_)]
    (panic 7)).
Definition safe_lookup : form :=
  lambda 2 (case (local 0)
    [(block_tag,
       letrec_ [safe_find]
         (unbox_sym (local 4)
            (case no_index
               [(cons_tag, local 0);
                (nil_tag, app (lref 1) [lref 2; lref 0; lref 1])]
               (app (lref 2) [lref 3; lref 1; lref 2]))))]
    unit_).
(** block.rs 775-791. *)
Definition lookup : form :=
  lambda 2 (unbox_sym (local 0)
    (let_ [thunk (call ix_lookup_fail [lref 0; lref 2])]
       (call ix_lookup_or_unboxed [lref 1; lref 0; lref 3]))).

(** eq.rs 37-79. *)
Definition nullary_branch (tag : N) : N * syn := (tag, case (local 1) [(tag, t)] f).
Definition unary_branch (tag : N) : N * syn :=
  (tag, case (local 2) [(tag, call ix_eq [lref 1; lref 0])]
          (force (local 1) (app_bif ix_eq [lref 0; lref 1]))).
Definition both (x y x' y' : N) : syn :=
  let_ [value_ (call ix_eq [lref x; lref y]); value_ (call ix_eq [lref x'; lref y'])] (call ix_and [lref 0; lref 1]).
Definition binary_branch (tag : N) : N * syn := (tag, case (local 3) [(tag, both 2 0 3 1)] f).
(** eq.rs 204-256: the right-hand side of a native. *)
Definition native_against (tag : N) : N * syn := (tag, force (local 0) (app_bif ix_eq [lref 2; lref 0])).
(** eq.rs 108-259. *)
Definition eq : form :=
  lambda 2 (case (local 0)
    [nullary_branch unit_tag; nullary_branch true_tag; nullary_branch false_tag; nullary_branch nil_tag;
     (block_tag, case (local 3) [(block_tag, call ix_eq [lref 2; lref 0])] f);
     unary_branch number_tag; unary_branch string_tag; unary_branch symbol_tag; unary_branch zdt_tag;
     unary_branch type_data_tag;
     binary_branch cons_tag;
     (pair_tag,
       switch (local 3)
         [(pair_tag, both 2 0 3 1);
          (kv_list_tag,
            letrec_ [value_ (call ix_extract_key [lref 8]); value_ (call ix_extract_value [lref 8]);
                     value_ (call ix_eq [lref 0; lref 5]); value_ (call ix_eq [lref 1; lref 6])]
              (call ix_and [lref 2; lref 3]))]);
     (kv_list_tag,
       switch (local 2)
         [(pair_tag,
            letrec_ [value_ (call ix_extract_key [lref 7]); value_ (call ix_extract_value [lref 7]);
                     value_ (call ix_eq [lref 0; lref 4]); value_ (call ix_eq [lref 1; lref 5])]
              (call ix_and [lref 2; lref 3]));
          (kv_list_tag, call ix_eq [lref 1; lref 0])])]
    (case (local 2)
       [native_against number_tag; native_against string_tag; native_against symbol_tag; native_against zdt_tag;
        native_against type_data_tag]
       (app_bif ix_eq [lref 1; lref 0]))).

(** meta.rs 104-115, 128-130, and constant.rs 54-59. *)
Definition empty_block : form := value_ (let_ [value_ nil_] (data block_tag [lref 0; RV zero])).
Definition raw_meta : form := lambda 1 (SDeMeta (local 0) (local 0) (SAtom (RG ix_empty_block))).
Definition with_meta : form := lambda 2 (SMeta (lref 0) (lref 1)).

(** force.rs 33-58, 71-96, 236-256. *)
Definition seq_list (unbox : syn -> syn -> syn) (self : N) : form :=
  lambda 1 (switch (local 0)
    [(nil_tag, local 0);
     (cons_tag,
       unbox (local 0)
         (force (local 0)
            (force (call self [lref 3])
               (data cons_tag [lref 1; lref 0]))))]).
Definition seq_str_list : form := seq_list unbox_str ix_seq_str_list.
Definition seq_num_list : form := seq_list unbox_num ix_seq_num_list.
Definition seq_spine : form :=
  lambda 1 (switch (local 0)
    [(nil_tag, local 0); (cons_tag, force (call ix_seq_spine [lref 1]) (local 0))]).

(** wrap.rs 28-165: the wrapper of an intrinsic written in Rust. An intrinsic's type says what each
    argument is ([TOther] where nothing is boxed); [strict] is the part of its demand signature used
    (analyse_demand.rs 276-288): which arguments are evaluated first. *)
Inductive ty := TNumber | TString | TSymbol | TZdt | TOther.
Definition layers (k : ty) : N := match k with TOther => 1 | _ => 2 end.
(** 43-60, 71-83. [positions] are the strict arguments, in order; [offset] as there. *)
Fixpoint offsets_from (offset : N) (tys : list (ty * bool)) : list N :=
  match tys with
  | [] => []
  | (k, true) :: tys => (offset + layers k) :: offsets_from (offset + layers k) tys
  | (_, false) :: tys => offsets_from offset tys
  end.
Definition depth (tys : list (ty * bool)) : N := last (0 :: offsets_from 0 tys) 0.
Fixpoint arg_refs (i : N) (total : N) (offsets : list N) (tys : list (ty * bool)) : list ref :=
  match tys with
  | [] => []
  | (_, true) :: tys =>
      match offsets with
      | o :: offsets => lref (total - o) :: arg_refs (i + 1) total offsets tys
      | [] => []
      end
  | (_, false) :: tys => lref (total + i) :: arg_refs (i + 1) total offsets tys
  end.
(** 90-115. *)
Definition boxing (k : ty) (syntax : syn) : syn :=
  let box tag := let_ [value_ syntax] (data tag [lref 0]) in
  match k with
  | TNumber => box number_tag
  | TString => box string_tag
  | TSymbol => box symbol_tag
  | TZdt => box zdt_tag
  | TOther => syntax
  end.
(** 139-158: one argument evaluated, and opened if it is boxed. *)
Definition evaluating (k : ty) (s : syn) (then_ : syn) : syn :=
  match k with
  | TNumber => unbox_num s (force (local 0) then_)
  | TString => unbox_str s (force (local 0) then_)
  | TSymbol => unbox_sym s (force (local 0) then_)
  | TZdt => unbox_zdt s (force (local 0) then_)
  | TOther => force s then_
  end.
Fixpoint nest (i offset : N) (tys : list (ty * bool)) (body : syn) : syn :=
  match tys with
  | [] => body
  | (k, true) :: tys => evaluating k (local (offset + i)) (nest (i + 1) (offset + layers k) tys body)
  | (_, false) :: tys => nest (i + 1) offset tys body
  end.
Definition wrap (index : N) (tys : list (ty * bool)) (ret : ty) : form :=
  match tys with
  | [] => value_ (app_bif index [])
  | _ => lambda (N.of_nat (length tys))
           (nest 0 0 tys (boxing ret (app_bif index (arg_refs 0 (depth tys) (offsets_from 0 tys) tys))))
  end.

(** The globals that these wrappers are and refer to (stg/runtime.rs: the wrapper of an intrinsic is
    the global of the same number). *)
Definition wrappers : list (N * form) :=
  [(ix_lookup, lookup); (ix_lookup_or, lookup_or); (ix_if, if_); (ix_eq, eq); (ix_block, block); (ix_kv, kv);
   (ix_matches_key, matches_key); (ix_extract_value, extract_value); (ix_and, and_); (ix_or, or_); (ix_not, not_);
   (ix_lookup_or_unboxed, lookup_or_unboxed); (ix_cons, cons_); (ix_nil, nil_form); (ix_head, head); (ix_tail, tail);
   (ix_elements, elements); (ix_with_meta, with_meta); (ix_seq_str_list, seq_str_list); (ix_dekv, dekv);
   (ix_extract_key, extract_key); (ix_pack_pair, pack_pair); (ix_block_pair, block_pair);
   (ix_empty_block, empty_block); (ix_raw_meta, raw_meta); (ix_seq_num_list, seq_num_list);
   (ix_safe_lookup, safe_lookup); (ix_cond, cond); (ix_clause, clause); (ix_nilp, nilp); (ix_seq_spine, seq_spine)].
Definition installed (globals : list form) : Prop :=
  forall i w, In (i, w) wrappers -> nth_error globals (N.to_nat i) = Some w.
End Wrappers.
