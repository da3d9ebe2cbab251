(** The analysis that annotates definitions with demands: src/core/analyse_demand.rs.

    Simplifications: core expressions carry no source positions; hash tables are association
    lists, of which the first entry for a key counts. The table of signatures keyed by the address
    of a function's body serves two purposes: a function that is called where it is written finds
    its signature only if the analysis left its body where it was ([untouched]), and a definition
    that is a function always finds its own. It is not represented otherwise; a body shared by two
    functions of different numbers of parameters is not considered. Loops take fuel and say [None]
    when it runs out; Props.v proves that this does not happen. *)
From Coq Require Import String List Bool Arith.
From Verif.Basics Require Import Model.
From Verif.Scope Require Import Model.
Import ListNotations.
Open Scope nat_scope.

(** [Demand::strict_once], [lazy_once], [strict_multi], [lazy_multi], src/core/demand.rs 159-194. *)
Definition strict_once : Basics.Model.demand := mkD CAtMostOnce SStrict false false.
Definition lazy_once : Basics.Model.demand := mkD CAtMostOnce SLazy false false.
Definition strict_multi : Basics.Model.demand := mkD CMulti SStrict false false.
Definition lazy_multi : Basics.Model.demand := mkD CMulti SLazy false false.

(** [Demand]'s derived equality, demand.rs 29-44. *)
Definition card_eqb (a b : card) : bool :=
  match a, b with
  | CUnknown, CUnknown | CAbsent, CAbsent | CAtMostOnce, CAtMostOnce | CMulti, CMulti => true
  | _, _ => false
  end.
Definition strict_eqb (a b : strict) : bool :=
  match a, b with SUnknown, SUnknown | SLazy, SLazy | SStrict, SStrict => true | _, _ => false end.
Definition demand_eqb (a b : Basics.Model.demand) : bool :=
  card_eqb (d_card a) (d_card b) && strict_eqb (d_strict a) (d_strict b)
  && Bool.eqb (d_whnf a) (d_whnf b) && Bool.eqb (d_rec a) (d_rec b).
Fixpoint list_eqb {A} (eqb : A -> A -> bool) (l m : list A) : bool :=
  match l, m with
  | [], [] => true
  | x :: l, y :: m => eqb x y && list_eqb eqb l m
  | _, _ => false
  end.

(** [DemandEnv], analyse_demand.rs 18-24: the demand on the variable of a scope and position. *)
Definition key := (nat * nat)%type.
Definition key_eqb (a b : key) : bool := (fst a =? fst b) && (snd a =? snd b).
Definition env := list (key * Basics.Model.demand).
Fixpoint get (m : env) (k : key) : option Basics.Model.demand :=
  match m with
  | [] => None
  | (k', d) :: m => if key_eqb k' k then Some d else get m k
  end.
Definition get_or_absent (m : env) (k : key) : Basics.Model.demand :=
  match get m k with Some d => d | None => demand_absent end.
(** [merge_envs], lines 299-308: one entry, all entries. *)
Fixpoint add (m : env) (k : key) (d : Basics.Model.demand) : env :=
  match m with
  | [] => [(k, plus demand_absent d)]
  | (k', d') :: m => if key_eqb k' k then (k', plus d' d) :: m else (k', d') :: add m k d
  end.
Definition merge (a b : env) : env := fold_left (fun m e => add m (fst e) (snd e)) b a.
(** [unshift_env], lines 290-297. *)
Definition unshift (m : env) : env :=
  flat_map (fun e => match fst e with (0, _) => [] | (S s, b) => [((s, b), snd e)] end) m.

Definition table := list (string * list Basics.Model.demand).
(** An annotated expression, the demands on its variables, and the names given signatures, the latest first. *)
Record answer := mkAnswer { a_expr : expr; a_env : env; a_table : table }.
Fixpoint all_some {A} (l : list (option A)) : option (list A) :=
  match l with
  | [] => Some []
  | Some x :: l => match all_some l with Some xs => Some (x :: xs) | None => None end
  | None :: _ => None
  end.
(** Environments merged from the first to the last; tables, the latest first. *)
Definition gather (m : env) (rs : list answer) : env := fold_left (fun m r => merge m (a_env r)) rs m.
Definition tables (rs : list answer) : table := flat_map a_table (rev rs).

(** Repeating a pass until it changes nothing. *)
Fixpoint settle {A} (same : A -> A -> bool) (pass : A -> A) (fuel : nat) (x : A) : option A :=
  match fuel with
  | 0 => None
  | S fuel => let y := pass x in if same y x then Some y else settle same pass fuel y
  end.
Fixpoint replace {A} (l : list A) (n : nat) (x : A) : list A :=
  match l, n with
  | [], _ => []
  | _ :: l, 0 => x :: l
  | y :: l, S n => y :: replace l n x
  end.

(** Step 3, lines 467-475: the definitions of the same let that each definition refers to. *)
Definition dependencies (n : nat) (envs : list env) : list (list nat) :=
  map (fun m => filter (fun j => match get m (0, j) with Some _ => true | None => false end) (seq 0 n)) envs.
(** Step 4a, lines 477-508: a search, breadth first, for the definition it starts from. [None] when
    it is found. *)
Fixpoint scan (start : nat) (row : list nat) (visited : list bool) (queue : list nat) : option (list bool * list nat) :=
  match row with
  | [] => Some (visited, queue)
  | j :: row =>
      if j =? start then None
      else if nth j visited false then scan start row visited queue
      else scan start row (replace visited j true) (queue ++ [j])
  end.
Fixpoint search (fuel : nat) (deps : list (list nat)) (start : nat) (visited : list bool) (queue : list nat) : option bool :=
  match queue with
  | [] => Some false
  | k :: queue =>
      match fuel with
      | 0 => None
      | S fuel =>
          match scan start (nth k deps []) visited queue with
          | None => Some true
          | Some (visited, queue) => search fuel deps start visited queue
          end
      end
  end.
Definition recursive (deps : list (list nat)) (start : nat) : option bool :=
  match scan start (nth start deps []) (repeat false (List.length deps)) [] with
  | None => Some true
  | Some (visited, queue) => search (List.length deps) deps start visited queue
  end.
(** Step 4b, lines 511-528. *)
Definition taint_from (deps : list (list nat)) (tainted : list bool) (i : nat) : list bool :=
  if nth i tainted false then fold_left (fun t j => replace t j true) (nth i deps []) tainted else tainted.
Definition taint (deps : list (list nat)) (tainted : list bool) : list bool :=
  fold_left (taint_from deps) (seq 0 (List.length deps)) tainted.
(** Step 5, lines 530-572. *)
Definition demand_on (body : env) (envs : list env) (ds : list Basics.Model.demand) (i : nat) : Basics.Model.demand :=
  fold_left (fun d j =>
      match get (nth j envs []) (0, i) with
      | Some dji => plus d (scale dji (nth j ds demand_absent))
      | None => d
      end)
    (seq 0 (List.length envs)) (get_or_absent body (0, i)).
Definition propagate (body : env) (envs : list env) (ds : list Basics.Model.demand) : list Basics.Model.demand :=
  fold_left (fun ds i => replace ds i (demand_on body envs ds i)) (seq 0 (List.length envs)) ds.
(** Steps 6 and 7, lines 574-605. *)
Definition is_absent (c : card) : bool := match c with CAbsent => true | _ => false end.
Definition mark (tainted is_rec : bool) (d : Basics.Model.demand) : Basics.Model.demand :=
  let c := if tainted && negb (is_absent (d_card d)) then CMulti else d_card d in
  mkD c (d_strict d) (d_whnf d) (if is_rec then true else d_rec d).
Definition rendered (d : Basics.Model.demand) : Basics.Model.demand :=
  match d_card d with CAtMostOnce => mkD CMulti (d_strict d) (d_whnf d) (d_rec d) | _ => d end.
Definition is_block (e : expr) : bool := match e with ENode (KBlock _) _ => true | _ => false end.
Definition let_demands (body' : expr) (body : env) (envs : list env) : option (list Basics.Model.demand) :=
  let n := List.length envs in
  let deps := dependencies n envs in
  match all_some (map (recursive deps) (seq 0 n)) with
  | None => None
  | Some recs =>
      match settle (list_eqb Bool.eqb) (taint deps) (S n) recs with
      | None => None
      | Some tainted =>
          match settle (list_eqb demand_eqb) (propagate body envs) (S (4 * n)) (map (fun i => get_or_absent body (0, i)) (seq 0 n)) with
          | None => None
          | Some ds =>
              let ds := map (fun x => mark (fst (fst x)) (snd (fst x)) (snd x)) (combine (combine tainted recs) ds) in
              Some (if is_block body' then map rendered ds else ds)
          end
      end
  end.
(** Lines 607-621: demands on the variables outside, definitions that are not used left out. *)
Definition counts (d : Basics.Model.demand) : bool := match d_card d with CAbsent | CUnknown => false | _ => true end.
Definition outward (body : env) (ds : list Basics.Model.demand) (envs : list env) : env :=
  fold_left (fun m x => if counts (fst x) then merge m (unshift (snd x)) else m) (combine ds envs) (unshift body).

(** [analyse_lam], lines 659-690: the signature of a function. *)
Definition signature (n : nat) (body : env) : list Basics.Model.demand :=
  map (fun i => get_or_absent body (0, i)) (seq 0 n).
(** The expressions returned as they are, lines 347-356, 424-425, and what they demand. *)
Definition untouched (e : expr) : bool :=
  match e with
  | EVar _ => true
  | ENode k _ =>
      match k with KLookup _ | KList | KBlock _ | KMeta | KArgTuple | KApp => false | _ => true end
  | _ => false
  end.
Definition leaf_env (e : expr) : env :=
  match e with EVar (Bound s b _) => [((s, b), strict_once)] | _ => [] end.

Section Analyse.
(** The table of intrinsics' signatures, [build_intrinsic_signatures], lines 67-131. *)
Variable intrinsics : table.
Definition find_sig (n : string) : option (list Basics.Model.demand) :=
  match find (fun e => String.eqb (fst e) n) intrinsics with Some e => Some (snd e) | None => None end.
(** [lookup_signature], lines 732-752. *)
Definition signature_of (f : expr) : option (list Basics.Model.demand) :=
  match f with
  | ENode (KIntrinsic n) _ => find_sig n
  | ELam _ ps body => if untouched body then Some (signature (List.length ps) (leaf_env body)) else None
  | _ => None
  end.
(** [analyse_app], lines 691-731. *)
Definition scaled (m : env) (d : Basics.Model.demand) : env := map (fun e => (fst e, scale (snd e) d)) m.
Fixpoint with_arguments (m : env) (ds : list Basics.Model.demand) (rs : list answer) : env :=
  match rs with
  | [] => m
  | r :: rs =>
      let d := hd lazy_multi ds in
      with_arguments (if is_absent (d_card d) then m else merge m (scaled (a_env r) d)) (tl ds) rs
  end.

(** The named signatures of a let, lines 622-645. *)
Definition named (name : string) (sig : option (list Basics.Model.demand)) : table :=
  match sig with Some sig => [(name, sig)] | None => [] end.

(** [analyse_expr], lines 343-427, with [analyse_let], lines 429-657. The last component is the
    signature of the expression if it is a function, through metadata. *)
Fixpoint analyse (e : expr) : option (answer * option (list Basics.Model.demand)) :=
  match e with
  | EVar _ => Some (mkAnswer e (leaf_env e) [], None)
  | ELet bs body t =>
      match analyse body, all_some (map (fun b => analyse (b_expr b)) bs) with
      | Some (body, _), Some rs =>
          let envs := map (fun r => a_env (fst r)) rs in
          match let_demands (a_expr body) (a_env body) envs with
          | Some ds =>
              let bs' := map (fun x => mkBinding (b_name (fst (fst x))) (a_expr (fst (snd (fst x)))) (snd x)) (combine (combine bs rs) ds) in
              let sigs := flat_map (fun x => named (b_name (fst x)) (snd (snd x))) (rev (combine bs rs)) in
              Some (mkAnswer (ELet bs' (a_expr body) t) (outward (a_env body) ds envs) (sigs ++ tables (map fst rs) ++ a_table body), None)
          | None => None
          end
      | _, _ => None
      end
  | ELam inlined ps body =>
      match analyse body with
      | Some (body, _) =>
          Some (mkAnswer (ELam inlined ps (a_expr body)) (unshift (a_env body)) (a_table body), Some (signature (List.length ps) (a_env body)))
      | None => None
      end
  | ENode k xs =>
      if untouched e then Some (mkAnswer e [] [], None)
      else
        match all_some (map analyse xs) with
        | None => None
        | Some rs =>
            let sig := match k, rs with KMeta, r :: _ => snd r | _, _ => None end in
            let rs := map fst rs in
            let env := match k, xs, rs with
                       | KApp, f :: _, r :: rs => with_arguments (a_env r) (match signature_of f with Some ds => ds | None => [] end) rs
                       | KLookup _, _, r :: rs | KMeta, _, r :: rs => gather (a_env r) rs
                       | _, _, _ => gather [] rs
                       end in
            Some (mkAnswer (ENode k (map a_expr rs)) env (tables rs), sig)
        end
  end.
(** [analyse_demands], lines 754-758. *)
Definition analyse_demands (e : expr) : option (expr * table) :=
  option_map (fun r => (a_expr (fst r), a_table (fst r))) (analyse e).
End Analyse.
