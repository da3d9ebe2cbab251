(** The pass over compiled code that removes superfluous allocations: src/eval/stg/optimiser.rs. *)
From Coq Require Import List Bool Arith NArith.
From Verif.Bytecode Require Import Model.
Import ListNotations.
Open Scope nat_scope.

Section Optimise.
Context {native : Type}.
Notation ref := (ref native).
Notation syn := (syn native).
Notation form := (form native).

(** [DataConstructor::try_from] and [arity], stg/tags.rs:70-92, 108-160: the number of fields of a
    constructor, if the tag is that of one. *)
Definition arity (tag : N) : option nat :=
  match tag with
  | 0%N | 1%N | 2%N | 6%N => Some 0
  | 3%N | 4%N | 5%N | 11%N | 17%N => Some 1
  | 7%N | 8%N | 9%N | 10%N | 12%N | 14%N | 15%N | 16%N => Some 2
  | 13%N => Some 3
  | _ => None
  end.

(** The changes of indices: [LetIndexTransformation], lines 16-18, [BumpIndexTransformation],
    102-104, [ShiftIndexTransformation], 124-126. *)
Inductive change := Mapped (m : list nat) | Bumped (n : nat) | Shifted (n : nat).

(** [apply] of each, lines 84-96, 112-120, 134-146, and [transform], 156-165: the stack of changes,
    the last one pushed first. *)
Fixpoint index (T : list change) (i : nat) : nat :=
  match T with
  | [] => i
  | Mapped m :: T => match nth_error m i with Some j => index T j | None => index T (i - length m) end
  | Bumped n :: T => index T i + n
  | Shifted n :: T => if i <? n then i else index T (i - n) + n
  end.
Definition transform (T : list change) (r : ref) : ref :=
  match r with RL i => RL (N.of_nat (index T (N.to_nat i))) | _ => r end.

(** [from_let_bindings], lines 23-45, and [from_letrec_bindings], 57-81. *)
Definition local_atom (f : form) : option nat :=
  match f with (FThunk, SAtom (RL i)) | (FValue, SAtom (RL i)) => Some (N.to_nat i) | _ => None end.
Fixpoint let_changes (fs : list form) : option (list nat) :=
  match fs with
  | [] => Some []
  | f :: fs => match local_atom f, let_changes fs with Some i, Some m => Some (i :: m) | _, _ => None end
  end.
Fixpoint letrec_changes (n : nat) (fs : list form) : option (list nat) :=
  match fs with
  | [] => Some []
  | f :: fs =>
      match local_atom f, letrec_changes n fs with
      | Some i, Some m => if i <? n then None else Some (i - n :: m)
      | _, _ => None
      end
  end.

Section Collect.
Context {A B : Type} (f : A -> option B).
Fixpoint collect (l : list A) : option (list B) :=
  match l with
  | [] => Some []
  | a :: l => match f a, collect l with Some b, Some l => Some (b :: l) | _, _ => None end
  end.
End Collect.

(** The whole constructor or its fields as the bindings of a let, lines 259-279. *)
Definition field_form (r : ref) : form := (FValue, SAtom r).
Definition in_scope (k : fkind) (T : list change) : list change :=
  match k with FLambda n _ => Shifted (N.to_nat n) :: T | _ => T end.

(** [apply], lines 203-410; [None] is the panic of line 288, a branch for an unknown tag.
    [transform_bindings], 168-201, is the function given to [collect] for a let.
    At a case whose scrutinee became a constructor the Rust code builds a let around the branch and
    calls itself on that; the call is unfolded here by its rule for let: for the fields, variables
    throughout, the let is stripped again, otherwise it is kept.  The fields have been transformed
    before and are transformed again. *)
Fixpoint apply (T : list change) (t : syn) {struct t} : option syn :=
  match t with
  | SAtom r => Some (SAtom (transform T r))
  | SLet rec fs body =>
      match (if rec then letrec_changes (length fs) fs else let_changes fs) with
      | Some m => apply (Mapped m :: T) body
      | None =>
          let T' := Shifted (length fs) :: T in
          let Tb := if rec then T' else T in
          match collect (fun f => option_map (pair (fst f)) (apply (in_scope (fst f) Tb) (snd f))) fs, apply T' body with
          | Some fs', Some body' => Some (SLet rec fs' body')
          | _, _ => None
          end
      end
  | SCase scr bs fb =>
      let forced := match bs, fb with [(tag, _)], None => match arity tag with Some 0 => true | _ => false end | _, _ => false end in
      match apply T scr with
      | None => None
      | Some scr' =>
          if forced then
            match bs with
            | (_, b) :: _ => option_map (fun b' => SCase scr' [] (Some b')) (apply (Bumped 1 :: T) b)
            | [] => None
            end
          else
            let rebuilt (_ : unit) :=
              match collect (fun b => match arity (fst b) with
                                      | Some n => option_map (pair (fst b)) (apply (Shifted n :: T) (snd b))
                                      | None => None
                                      end) bs,
                    match fb with Some f => option_map Some (apply (Shifted 1 :: T) f) | None => Some None end with
              | Some bs', Some fb' => Some (SCase scr' bs' fb')
              | _, _ => None
              end in
            match scr' with
            | SCons tag args =>
                let fs := map field_form args in
                match
                  (fix known (bs : list (N * syn)) : option (option syn) :=
                     match bs with
                     | [] => None
                     | (t, b) :: bs =>
                         if (t =? tag)%N then
                           Some match args with
                                | [] => apply T b
                                | _ =>
                                    match let_changes fs with
                                    | Some m => apply (Mapped m :: T) b
                                    | None => option_map (SLet false (map field_form (map (transform T) args)))
                                                         (apply (Shifted (length args) :: T) b)
                                    end
                                end
                         else known bs
                     end) bs
                with
                | Some o => o
                | None =>
                    match fb with
                    | Some f => option_map (SLet false [(FValue, SCons tag (map (transform T) args))]) (apply (Shifted 1 :: T) f)
                    | None => rebuilt tt
                    end
                end
            | _ => rebuilt tt
            end
      end
  | SCons tag args => Some (SCons tag (map (transform T) args))
  | SApp f args eager => Some (SApp (transform T f) (map (transform T) args) eager)
  | SDirectApp smid f args eager => Some (SDirectApp smid (transform T f) (map (transform T) args) eager)
  | SBif i args => Some (SBif i (map (transform T) args))
  | SAnn smid body => option_map (SAnn smid) (apply T body)
  | SMeta m b => Some (SMeta (transform T m) (transform T b))
  | SSeq scr body =>
      match apply T scr, apply T body with Some scr', Some body' => Some (SSeq scr' body') | _, _ => None end
  | SDeMeta scr h o =>
      match apply T scr, apply (Shifted 2 :: T) h, apply (Shifted 1 :: T) o with
      | Some scr', Some h', Some o' => Some (SDeMeta scr' h' o')
      | _, _, _ => None
      end
  | SFused i l r inner => option_map (SFused i (transform T l) (transform T r)) (apply T inner)
  | SLookupLit _ _ _ _ | SBlackHole => Some t
  end.

(** The last step of [compile], compiler.rs:1725-1729. *)
Definition optimise (t : syn) : option syn := apply [] t.

End Optimise.
