(** * Events build the document *)

From Coq Require Import String List NArith ZArith Bool Lia.
From Verif Require Import Export.Model Export.Spec Export.Maps.
Import ListNotations.
Open Scope list_scope.

(** ** Induction on values *)

Definition within (P : value -> Prop) (i : item value) : Prop :=
  match i with Pair _ v => P v | KvList l => Forall P l end.

Section ValueInd.
Variable P : value -> Prop.
Hypothesis HU : forall ms, P (VUnit ms).
Hypothesis HB : forall ms b, P (VBool ms b).
Hypothesis HA : forall ms a, P (VAtom ms a).
Hypothesis HN : forall ms n, P (VNative ms n).
Hypothesis HL : forall ms l p, Forall P l -> P (VList ms l p).
Hypothesis HK : forall ms items, Forall (within P) items -> P (VBlock ms items).
Hypothesis HF : forall ms, P (VFun ms).
Hypothesis HO : forall ms, P (VOther ms).

Fixpoint value_ind' (v : value) : P v :=
  let go := fix go l := match l return Forall P l with
                        | [] => Forall_nil _
                        | x :: r => Forall_cons x (value_ind' x) (go r)
                        end in
  match v with
  | VUnit ms => HU ms
  | VBool ms b => HB ms b
  | VAtom ms a => HA ms a
  | VNative ms n => HN ms n
  | VList ms l p => HL ms l p (go l)
  | VBlock ms items =>
    HK ms items ((fix items_go l := match l return Forall (within P) l with
                  | [] => Forall_nil _
                  | i :: r => Forall_cons i match i return within P i with
                                            | Pair k x => value_ind' x
                                            | KvList l => go l
                                            end (items_go r)
                  end) items)
  | VFun ms => HF ms
  | VOther ms => HO ms
  end.
End ValueInd.

Section ArrayInd.
Variable P : array -> Prop.
Hypothesis HC : forall b, P (Cell b).
Hypothesis HR : forall l, Forall P l -> P (Rows l).

Fixpoint array_ind' (a : array) : P a :=
  match a with
  | Cell b => HC b
  | Rows l => HR l ((fix go l := match l return Forall P l with
                                 | [] => Forall_nil _
                                 | x :: r => Forall_cons x (array_ind' x) (go r)
                                 end) l)
  end.
End ArrayInd.

(** ** Visibility *)

Lemma suppressed_hidden v : suppressed (metas v) = true <-> hidden v.
Proof.
  unfold hidden, suppressed. destruct (metas v) as [|m r].
  - split; [discriminate|]. intros (m & r & E & _). discriminate E.
  - destruct (export m) as [s|] eqn:E.
    + rewrite orb_true_iff, !String.eqb_eq. split.
      * intros [-> | ->]; exists m, r; rewrite E; auto.
      * intros (m' & r' & H & K). injection H as <- <-. rewrite E in K. destruct K as [K|K]; injection K as ->; auto.
    + split; [discriminate|]. intros (m' & r' & H & K). injection H as <- <-. rewrite E in K. destruct K; discriminate.
Qed.

Lemma suppressed_visible v : suppressed (metas v) = false <-> visible v.
Proof.
  unfold visible. rewrite <- suppressed_hidden. destruct (suppressed (metas v)); split; congruence.
Qed.

Lemma hidden_dec v : hidden v \/ visible v.
Proof.
  destruct (suppressed (metas v)) eqn:E; [left; now apply suppressed_hidden|right; now apply suppressed_visible].
Qed.

Lemma function_dec v : is_function v \/ ~ is_function v.
Proof. destruct v; try (right; intros [ms' E]; discriminate E). left. now eexists. Qed.

Lemma renderable_iff v : renderable v = true <-> visible v /\ ~ is_function v.
Proof.
  destruct v; cbn [renderable]; try (rewrite negb_true_iff, suppressed_visible; split;
    [intros H; split; [exact H|intros [ms' E]; discriminate E]|intros H; apply H]).
  split; [discriminate|]. intros [_ N]. elim N. now eexists.
Qed.

Lemma not_renderable v : hidden v \/ is_function v -> renderable v = false.
Proof.
  intros H. destruct (renderable v) eqn:E; [|reflexivity]. apply renderable_iff in E.
  destruct E as [V N]. destruct H; contradiction.
Qed.

Lemma render_hidden v : hidden v -> render v = [].
Proof. intros H. apply suppressed_hidden in H. destruct v; cbn [render metas] in *; now rewrite H. Qed.

Lemma shown_tag_eq f ms : shown_tag f ms = keep_tag f (tag_of ms).
Proof.
  destruct f; cbn; try reflexivity. destruct ms as [|[e [[s|]|]] r]; reflexivity.
Qed.

Lemma is_number_finite b : is_number b <-> finite b = true.
Proof.
  unfold is_number, finite. rewrite negb_true_iff, N.eqb_neq.
  rewrite N.shiftr_div_pow2. change 2047%N with (N.ones 11). rewrite N.land_ones. reflexivity.
Qed.

(** ** Running *)

Definition push (s : list expectation) (a : accum) : accum := mkAccum s (result a) (document_open a).

Lemma run_app f xs : forall a ys,
  run f a (xs ++ ys) =
  let '(a', w, o) := run f a xs in
  match o with
  | None => let '(a'', w', o') := run f a' ys in (a'', w ++ w', o')
  | Some _ => (a', w, o)
  end.
Proof.
  induction xs as [|[e|x] xs IH]; intros a ys; cbn [run app].
  - now destruct (run f a ys) as [[a'' w'] o'].
  - destruct (offer f a e) as [x|[a' w]]; [reflexivity|]. rewrite IH.
    destruct (run f a' xs) as [[a1 w1] [x|]]; [reflexivity|].
    destruct (run f a1 ys) as [[a2 w2] o2]. now rewrite app_assoc.
  - reflexivity.
Qed.

(** Inside the document: nothing is written while there is no result. *)
Lemma run_scalar f a t p rest : result a = None -> unrepresentable f p = false ->
  unacceptable f a (Scalar t p) = false ->
  run f a (Emit (Scalar t p) :: rest) = run f (push (feed f (stack a) (from_primitive f t p)) a) rest.
Proof.
  intros R U A. cbn [run offer]. rewrite U, A. unfold emit, consume. cbn [result]. rewrite R. unfold push. rewrite R.
  now destruct (run f _ rest) as [[a' w] o].
Qed.

Lemma run_seq_start f a t rest : result a = None -> unacceptable f a (SeqStart t) = false ->
  run f a (Emit (SeqStart t) :: rest) = run f (push (ListAcc t [] :: stack a) a) rest.
Proof.
  intros R A. cbn [run offer]. rewrite A. unfold emit, consume. cbn [result]. rewrite R. unfold push. rewrite R.
  now destruct (run f _ rest) as [[a' w] o].
Qed.

Lemma run_block_start f a t rest : result a = None -> unacceptable f a (BlockStart t) = false ->
  run f a (Emit (BlockStart t) :: rest) = run f (push (EvenBlock t [] :: stack a) a) rest.
Proof.
  intros R A. cbn [run offer]. rewrite A. unfold emit, consume. cbn [result]. rewrite R. unfold push. rewrite R.
  now destruct (run f _ rest) as [[a' w] o].
Qed.

Lemma run_seq_end f a t l s rest : result a = None ->
  run f (push (ListAcc t l :: s) a) (Emit SeqEnd :: rest) = run f (push (feed f s (from_vec f t l)) a) rest.
Proof.
  intros R. unfold push. rewrite R. cbn [run offer]. destruct f; cbn; now destruct (run _ _ rest) as [[a' w] o].
Qed.

Lemma run_block_end f a t ps s rest : result a = None ->
  run f (push (EvenBlock t ps :: s) a) (Emit BlockEnd :: rest) = run f (push (feed f s (from_pairs f t ps)) a) rest.
Proof.
  intros R. unfold push. rewrite R. cbn [run offer]. destruct f; cbn [unacceptable unrepresentable_key expecting_key stack negb];
    cbn -[from_pairs]; now destruct (run _ _ rest) as [[a' w] o].
Qed.

(** A format takes anything but keys anywhere. *)
Definition free (f : format) (s : list expectation) : Prop :=
  f = Yaml \/ match s with EvenBlock _ _ :: _ => False | _ => True end.

Lemma free_accepts f a e : free f (stack a) -> unacceptable f a e = false.
Proof.
  intros [-> |H]; [reflexivity|]. unfold unacceptable, expecting_key. destruct f; try reflexivity;
    destruct (stack a) as [|[]]; try contradiction; reflexivity.
Qed.

Lemma push_push s s' a : push s (push s' a) = push s a.
Proof. reflexivity. Qed.

Lemma push_stack a : push (stack a) a = a.
Proof. now destruct a. Qed.

(** *** Elements of sets, vecs and arrays *)

Lemma run_elems f a l rest : result a = None -> free f (stack a) -> Forall proper_elem l ->
  run f a (emit_elems l ++ rest) = run f (push (feed f (stack a) (Seq None (map (shown_elem f) l))) a) rest.
Proof.
  intros R A F. unfold emit_elems. cbn [app]. rewrite <- app_assoc. rewrite run_seq_start by (auto using free_accepts).
  enough (H : forall l acc, Forall proper_elem l ->
    run f (push (ListAcc None acc :: stack a) a) (map (fun e => Emit (Scalar None (elem_prim e))) l ++ Emit SeqEnd :: rest) =
    run f (push (feed f (stack a) (Seq None (acc ++ map (shown_elem f) l))) a) rest) by exact (H l [] F).
  clear l F. induction l as [|e l IH]; intros acc F; cbn [map app].
  - rewrite run_seq_end by exact R. rewrite app_nil_r. now destruct f.
  - inversion F as [|? ? Fe F']; subst. rewrite run_scalar.
    + cbn [feed stack push feed_one]. rewrite push_push.
      assert (E : from_primitive f None (elem_prim e) = shown_elem f e).
      { destruct e as [b|s|s]; cbn [elem_prim shown_elem]; [|now destruct f|now destruct f].
        cbn in Fe. apply is_number_finite in Fe. unfold number_from_f64. rewrite Fe. now destruct f. }
      rewrite E. rewrite (IH (acc ++ [shown_elem f e])) by assumption. now rewrite <- app_assoc.
    + exact R.
    + destruct e as [b|s|s]; destruct f; cbn; try reflexivity; unfold number_from_f64; destruct (finite b); reflexivity.
    + apply free_accepts. right. exact Logic.I.
Qed.

Lemma run_array f x : forall a rest, numeric x -> result a = None -> free f (stack a) ->
  run f a (emit_array x ++ rest) = run f (push (feed f (stack a) (shown_array x)) a) rest.
Proof.
  induction x as [b|l IH] using array_ind'; intros a rest Nx R A.
  - inversion Nx as [? Nb|]; subst. cbn [emit_array app]. apply is_number_finite in Nb.
    unfold number_from_f64. rewrite Nb. rewrite run_scalar; [now destruct f|exact R|now destruct f|now apply free_accepts].
  - inversion Nx as [|? Nl]; subst. cbn [emit_array app shown_array]. rewrite <- app_assoc.
    rewrite run_seq_start by (auto using free_accepts).
    enough (H : forall l acc, Forall (fun x => forall a rest, numeric x -> result a = None -> free f (stack a) ->
        run f a (emit_array x ++ rest) = run f (push (feed f (stack a) (shown_array x)) a) rest) l -> Forall numeric l ->
      run f (push (ListAcc None acc :: stack a) a) (flat_map emit_array l ++ Emit SeqEnd :: rest) =
      run f (push (feed f (stack a) (Seq None (acc ++ map shown_array l))) a) rest) by exact (H l [] IH Nl).
    clear l IH Nx Nl. induction l as [|x l IHl]; intros acc FI FN; cbn [map app flat_map].
    + rewrite run_seq_end by exact R. rewrite app_nil_r. now destruct f.
    + inversion FI as [|? ? Ix FI']; subst. inversion FN as [|? ? Nx FN']; subst. rewrite <- app_assoc.
      rewrite Ix; [|exact Nx|exact R|right; exact Logic.I]. cbn [feed stack push feed_one]. rewrite push_push.
      rewrite (IHl (acc ++ [shown_array x])) by assumption. now rewrite <- app_assoc.
Qed.

(** *** Atoms *)

Lemma atom_fits f a : (f = Yaml \/ f = Toml -> forall z, a = Num (Int z) -> (z < 2 ^ 63)%Z) ->
  unrepresentable f (Atom a) = false /\ forall t, from_primitive f t (Atom a) = Leaf (keep_tag f t) (leaf f a).
Proof.
  intros H. destruct a as [[z|b]|s|s|m]; try (split; [now destruct f|intros t; now destruct f]).
  assert (L : f = Yaml \/ f = Toml -> (2 ^ 63 <=? z)%Z = false).
  { intros K. apply Z.leb_gt. now apply (H K). }
  unfold from_primitive. destruct f; cbn [unrepresentable overflows from_number leaf]; rewrite ?L by auto; now split.
Qed.

Lemma text_as_key f t a s : f <> Yaml -> text_atom a s ->
  as_key f (from_primitive f t (Atom a)) = Leaf None (SText s).
Proof. intros N [-> | ->]; destruct f; try reflexivity; now elim N. Qed.

Lemma text_accepted f a t x s : text_atom x s -> unacceptable f a (Scalar t (Atom x)) = false.
Proof.
  intros [-> | ->]; destruct f; cbn; try reflexivity; destruct (expecting_key a); reflexivity.
Qed.

Lemma text_represented f x s : text_atom x s -> unrepresentable f (Atom x) = false.
Proof. intros [-> | ->]; now destruct f. Qed.

(** ** A value feeds the document that shows it, or is refused *)

Definition render_item (i : item value) : list action :=
  match i with
  | Pair k x => if renderable x then Emit (Scalar None (Atom k)) :: render x else []
  | KvList l => flat_map render l
  end.

Lemma render_visible v : visible v -> render v =
  match v with
  | VUnit _ => [Emit (Scalar None Null)]
  | VBool _ b => [Emit (Scalar None (Bool b))]
  | VAtom ms a => [Emit (Scalar (tag_of ms) (Atom a))]
  | VNative _ n => emit_native n
  | VList ms l proper =>
    Emit (SeqStart (tag_of ms)) :: flat_map render l ++
      (if proper then [Emit SeqEnd] else [Fail Improper])
  | VBlock ms items => Emit (BlockStart (tag_of ms)) :: flat_map render_item items ++ [Emit BlockEnd]
  | VFun _ | VOther _ => [Fail NotScalar]
  end.
Proof. intros V. apply suppressed_visible in V. destruct v; cbn [render metas] in *; now rewrite V. Qed.

Definition feeds (f : format) (v : value) (t : tree) : Prop :=
  forall a rest, result a = None -> free f (stack a) ->
  run f a (render v ++ rest) = run f (push (feed f (stack a) t) a) rest.

Definition fails (f : format) (acts : list action) (s : list expectation) : Prop :=
  forall a rest, result a = None -> exists a' x, run f (push s a) (acts ++ rest) = (a', [], Some x).

Definition refused (f : format) (v : value) : Prop :=
  forall a rest, result a = None -> free f (stack a) ->
  exists a' x, run f a (render v ++ rest) = (a', [], Some x).

Lemma shows_not_function f v t : shows f v t -> ~ is_function v.
Proof. intros H [ms ->]. inversion H. Qed.

Lemma render_text k s : visible k -> text_value k s ->
  exists g x, text_atom x s /\ render k = [Emit (Scalar g (Atom x))].
Proof.
  intros V (ms & x & T & [-> | ->]); rewrite render_visible by assumption.
  - now exists (tag_of ms), x.
  - now exists None, x.
Qed.

Lemma run_text f a g x s rest : result a = None -> text_atom x s ->
  run f a (Emit (Scalar g (Atom x)) :: rest) =
  run f (push (feed f (stack a) (from_primitive f g (Atom x))) a) rest.
Proof. intros R T. apply run_scalar; [exact R|eapply text_represented; eauto|eapply text_accepted; eauto]. Qed.

Lemma text_atom_dec a : (exists s, text_atom a s) \/ (forall s, ~ text_atom a s).
Proof.
  destruct a as [n|s|s|m]; try (right; intros s' [E|E]; discriminate E); left; exists s; [now left|now right].
Qed.

Lemma text_value_dec v : (exists s, text_value v s) \/ (forall s, ~ text_value v s).
Proof.
  destruct v as [| |ms a|ms n| | | | ]; try (right; intros s (ms' & a' & _ & [E|E]); discriminate E).
  - destruct (text_atom_dec a) as [[s T]|T]; [left; exists s, ms, a; auto|].
    right. intros s (ms' & a' & T' & [E|E]); [injection E as -> ->; exact (T s T')|discriminate E].
  - destruct n as [a|l|l|x|]; try (right; intros s (ms' & a' & _ & [E|E]); discriminate E).
    destruct (text_atom_dec a) as [[s T]|T]; [left; exists s, ms, a; auto|].
    right. intros s (ms' & a' & T' & [E|E]); [discriminate E|injection E as -> ->; exact (T s T')].
Qed.

(** A key that is not text is refused where a key is due. *)
Lemma scalar_key_refused f a g p s t ps rest : f <> Yaml -> stack a = EvenBlock t ps :: s ->
  (forall x, p = Atom x -> forall s', ~ text_atom x s') ->
  exists a' x, run f a (Emit (Scalar g p) :: rest) = (a', [], Some x).
Proof.
  intros N E T. cbn [run offer]. destruct (unrepresentable f p); [eauto|].
  assert (U : unacceptable f a (Scalar g p) = true).
  { unfold unacceptable, expecting_key. rewrite E. destruct f; try (now elim N);
      destruct p as [|b|[n|s'|s'|m]]; cbn; try reflexivity; exfalso;
      (eapply (T _ eq_refl s'); (now left) || (now right)). }
  rewrite U. eauto.
Qed.

Lemma regular_starts k : visible k -> regular k -> (forall s, ~ text_value k s) ->
  exists e r, render k = Emit e :: r /\
    match e with
    | Scalar _ p => forall x, p = Atom x -> forall s', ~ text_atom x s'
    | SeqStart _ | BlockStart _ => True
    | _ => False
    end.
Proof.
  intros V G T. rewrite render_visible by exact V.
  assert (NT : forall a, (exists ms, k = VAtom ms a \/ k = VNative ms (NAtom a)) -> forall s, ~ text_atom a s).
  { intros a (ms & E) s TA. apply (T s). now exists ms, a. }
  inversion G; subst; cbn [emit_native emit_elems].
  - eexists _, _. split; [reflexivity|]. intros x E. discriminate E.
  - eexists _, _. split; [reflexivity|]. intros x E. discriminate E.
  - eexists _, _. split; [reflexivity|]. intros x E. injection E as <-. apply NT. eexists. now left.
  - eexists _, _. split; [reflexivity|]. intros x E. injection E as <-. apply NT. eexists. now right.
  - eexists _, _. split; [reflexivity|]. exact Logic.I.
  - eexists _, _. split; [reflexivity|]. exact Logic.I.
  - destruct a as [b|l]; cbn [emit_array]; eexists _, _; (split; [reflexivity|]); [|exact Logic.I].
    intros x E s' TA. injection E as <-. destruct TA as [E|E]; discriminate E.
  - eexists _, _. split; [reflexivity|]. exact Logic.I.
  - eexists _, _. split; [reflexivity|]. exact Logic.I.
Qed.

Lemma key_refused f a k s t ps rest : f <> Yaml -> stack a = EvenBlock t ps :: s ->
  visible k -> regular k -> (forall s, ~ text_value k s) ->
  exists a' x, run f a (render k ++ rest) = (a', [], Some x).
Proof.
  intros N E V G T. destruct (regular_starts k V G T) as (e & r & -> & H). cbn [app].
  destruct e; try contradiction.
  - eapply scalar_key_refused; eauto.
  - cbn [run offer]. assert (U : unacceptable f a (SeqStart tag) = true).
    { unfold unacceptable, expecting_key. rewrite E. destruct f; try (now elim N); reflexivity. }
    rewrite U. eauto.
  - cbn [run offer]. assert (U : unacceptable f a (BlockStart tag) = true).
    { unfold unacceptable, expecting_key. rewrite E. destruct f; try (now elim N); reflexivity. }
    rewrite U. eauto.
Qed.

Lemma too_big f z : (f = Yaml \/ f = Toml) -> (2 ^ 63 <= z)%Z -> unrepresentable f (Atom (Num (Int z))) = true.
Proof. intros [-> | ->] L; cbn [unrepresentable overflows]; now apply Z.leb_le. Qed.

Lemma atom_dec f a : (f = Yaml \/ f = Toml -> forall z, a = Num (Int z) -> (z < 2 ^ 63)%Z) \/
  ((f = Yaml \/ f = Toml) /\ exists z, a = Num (Int z) /\ (2 ^ 63 <= z)%Z).
Proof.
  destruct a as [[z|b]|s|s|m]; try (left; intros _ z E; discriminate E).
  destruct (Z_lt_le_dec z (2 ^ 63)) as [L|L]; [left; intros _ z' E; now injection E as <-|].
  destruct f; try (left; intros [E|E]; discriminate E); right; (split; [auto|eauto]).
Qed.

Definition outcome (f : format) (v : value) : Prop :=
  (exists t, shows f v t /\ feeds f v t) \/ (unfit f v /\ refused f v).

Lemma outcome_list f l : (forall v, In v l -> hidden v \/ regular v) ->
  Forall (fun v => visible v -> regular v -> outcome f v) l ->
  (exists ts, shows_all f l ts /\ forall a g acc s rest, result a = None ->
     run f (push (ListAcc g acc :: s) a) (flat_map render l ++ rest) =
     run f (push (ListAcc g (acc ++ ts) :: s) a) rest) \/
  ((exists v, In v l /\ visible v /\ unfit f v) /\
   forall g acc s, fails f (flat_map render l) (ListAcc g acc :: s)).
Proof.
  induction l as [|v l IH]; intros G F.
  - left. exists []. split; [constructor|]. intros. cbn. now rewrite app_nil_r.
  - inversion F as [|? ? Fv F']; subst. specialize (IH (fun w I => G w (or_intror I)) F').
    cbn [flat_map]. destruct (hidden_dec v) as [H|V].
    + rewrite (render_hidden v H). cbn [app]. destruct IH as [(ts & S & R)|[(w & I & U) R]].
      * left. exists ts. split; [now apply all_hidden|exact R].
      * right. split; [exists w; split; [now right|exact U]|exact R].
    + assert (Gv : regular v) by (destruct (G v (or_introl eq_refl)); [contradiction|assumption]).
      destruct (Fv V Gv) as [(t & S & R)|[U R]].
      * destruct IH as [(ts & Ss & Rs)|[(w & I & U) Rs]].
        -- left. exists (t :: ts). split; [now apply all_shown|]. intros a g acc s rest Ra. rewrite <- app_assoc.
           rewrite R; [|exact Ra|right; exact Logic.I]. cbn [feed stack push feed_one]. rewrite push_push, Rs by exact Ra.
           now rewrite <- app_assoc.
        -- right. split; [exists w; split; [now right|exact U]|]. intros g acc s a rest Ra. rewrite <- app_assoc.
           rewrite R; [|exact Ra|right; exact Logic.I]. cbn [feed stack push feed_one]. rewrite push_push. now apply Rs.
      * right. split; [exists v; split; [now left|now split]|]. intros g acc s a rest Ra. rewrite <- app_assoc.
        apply R; [exact Ra|right; exact Logic.I].
Qed.

Definition regular_items (items : list (item value)) : Prop :=
  (forall k v, In (Pair k v) items -> hidden v \/ is_function v \/ regular v) /\
  (forall l, In (KvList l) items ->
     exists k v, l = [k; v] /\ visible k /\ visible v /\ regular k /\ regular v).

(** Some entry is unfit. *)
Definition unfit_item (f : format) (i : item value) : Prop := forall ms items, In i items -> unfit f (VBlock ms items).

Lemma format_dec (f : format) : f = Yaml \/ f <> Yaml.
Proof. destruct f; auto; right; discriminate. Qed.

Lemma outcome_items f items : regular_items items ->
  Forall (within (fun v => visible v -> regular v -> outcome f v)) items ->
  (exists ps, shows_entries f items ps /\ (f <> Yaml -> Forall (fun e => is_text (fst e)) ps) /\
     forall a g acc s rest, result a = None ->
     run f (push (EvenBlock g acc :: s) a) (flat_map render_item items ++ rest) =
     run f (push (EvenBlock g (acc ++ ps) :: s) a) rest) \/
  ((exists i, In i items /\ unfit_item f i) /\
   forall g acc s, fails f (flat_map render_item items) (EvenBlock g acc :: s)).
Proof.
  induction items as [|i items IH]; intros G F.
  - left. exists []. split; [constructor|]. split; [constructor|]. intros. cbn. now rewrite app_nil_r.
  - inversion F as [|? ? Fi F']; subst.
    assert (G' : regular_items items).
    { destruct G as [P K]. split; intros; [eapply P|eapply K]; right; eassumption. }
    specialize (IH G' F'). cbn [flat_map].
    (* an entry that feeds *)
    assert (Fed : forall kt t, (forall ps, shows_entries f items ps -> shows_entries f (i :: items) ((kt, t) :: ps)) ->
      (f <> Yaml -> is_text kt) ->
      (forall a g acc s rest, result a = None ->
         run f (push (EvenBlock g acc :: s) a) (render_item i ++ rest) =
         run f (push (EvenBlock g (acc ++ [(kt, t)]) :: s) a) rest) ->
      (exists ps, shows_entries f (i :: items) ps /\ (f <> Yaml -> Forall (fun e => is_text (fst e)) ps) /\
         forall a g acc s rest, result a = None ->
         run f (push (EvenBlock g acc :: s) a) ((render_item i ++ flat_map render_item items) ++ rest) =
         run f (push (EvenBlock g (acc ++ ps) :: s) a) rest) \/
      ((exists j, In j (i :: items) /\ unfit_item f j) /\
       forall g acc s, fails f (render_item i ++ flat_map render_item items) (EvenBlock g acc :: s))).
    { intros kt t S T R. destruct IH as [(ps & Ss & Ts & Rs)|[(j & I & U) Rs]].
      - left. exists ((kt, t) :: ps). split; [now apply S|]. split; [intros N; constructor; [now apply T|now apply Ts]|].
        intros a g acc s rest Ra. rewrite <- app_assoc, R, Rs by exact Ra. now rewrite <- app_assoc.
      - right. split; [exists j; split; [now right|exact U]|]. intros g acc s a rest Ra.
        rewrite <- app_assoc, R by exact Ra. now apply Rs. }
    (* an entry that is refused *)
    assert (Ref : unfit_item f i -> (forall g acc s, fails f (render_item i) (EvenBlock g acc :: s)) ->
      (exists j, In j (i :: items) /\ unfit_item f j) /\
       forall g acc s, fails f (render_item i ++ flat_map render_item items) (EvenBlock g acc :: s)).
    { intros U R. split; [exists i; split; [now left|exact U]|]. intros g acc s a rest Ra. rewrite <- app_assoc. now apply R. }
    destruct i as [k v|l].
    + destruct (renderable v) eqn:E.
      * apply renderable_iff in E. destruct E as [V NF].
        assert (Gv : regular v).
        { destruct (proj1 G k v (or_introl eq_refl)) as [H|[H|H]]; [contradiction|contradiction|exact H]. }
        cbn [within] in Fi.
        assert (E : render_item (Pair k v) = Emit (Scalar None (Atom k)) :: render v).
        { cbn [render_item]. assert (renderable v = true) as -> by now apply renderable_iff. reflexivity. }
        destruct (text_atom_dec k) as [[s T]|T].
        -- assert (K : forall a g acc s' rest, result a = None ->
             run f (push (EvenBlock g acc :: s') a) (Emit (Scalar None (Atom k)) :: rest) =
             run f (push (OddBlock g acc (Leaf None (SText s)) :: s') a) rest).
           { intros a g acc s' rest Ra. rewrite (run_text f (push (EvenBlock g acc :: s') a) None k s rest Ra T).
             cbn [feed stack push feed_one]. rewrite push_push. destruct (format_dec f) as [-> |N].
             - destruct T as [-> | ->]; reflexivity.
             - now rewrite (text_as_key f None k s N T). }
           destruct (Fi V Gv) as [(t & S & R)|[U R]].
           ++ apply (Fed (Leaf None (SText s)) t).
              ** intros ps Sp. now apply entries_pair.
              ** intros _. now exists s.
              ** intros a g acc s' rest Ra. rewrite E. cbn [app]. rewrite K by exact Ra.
                 rewrite R; [|exact Ra|right; exact Logic.I]. cbn [feed stack push feed_one]. now rewrite push_push.
           ++ right. apply Ref.
              ** intros ms its I. now apply (unfit_entry f ms its k v).
              ** intros g acc s' a rest Ra. rewrite E. cbn [app]. rewrite K by exact Ra.
                 apply R; [exact Ra|right; exact Logic.I].
        -- destruct (format_dec f) as [Y|N].
           ++ destruct (atom_dec f k) as [Fit|[_ (z & -> & L)]].
              ** destruct (atom_fits f k Fit) as [Un Lf].
                 assert (K : forall a g acc s' rest, result a = None ->
                   run f (push (EvenBlock g acc :: s') a) (Emit (Scalar None (Atom k)) :: rest) =
                   run f (push (OddBlock g acc (Leaf None (leaf f k)) :: s') a) rest).
                 { intros a g acc s' rest Ra. rewrite run_scalar; [|exact Ra|exact Un|apply free_accepts; now left].
                   cbn [feed stack push feed_one]. rewrite push_push, Lf. now rewrite Y. }
                 destruct (Fi V Gv) as [(t & S & R)|[U R]].
                 --- apply (Fed (Leaf None (leaf f k)) t).
                     +++ intros ps Sp. apply entries_pair_yaml; auto.
                     +++ intros N. contradiction.
                     +++ intros a g acc s' rest Ra. rewrite E. cbn [app]. rewrite K by exact Ra.
                         rewrite R; [|exact Ra|right; exact Logic.I]. cbn [feed stack push feed_one]. now rewrite push_push.
                 --- right. apply Ref.
                     +++ intros ms its I. now apply (unfit_entry f ms its k v).
                     +++ intros g acc s' a rest Ra. rewrite E. cbn [app]. rewrite K by exact Ra.
                         apply R; [exact Ra|right; exact Logic.I].
              ** right. apply Ref.
                 --- intros ms its I. now apply (unfit_big_key f ms its z v).
                 --- intros g acc s' a rest Ra. rewrite E. cbn [app run offer].
                     rewrite too_big by auto. eauto.
           ++ right. apply Ref.
              ** intros ms its I. now apply (unfit_key f ms its k v).
              ** intros g acc s' a rest Ra. rewrite E. cbn [app].
                 eapply (scalar_key_refused f _ None (Atom k)); [exact N|reflexivity|].
                 intros x Ex. injection Ex as <-. exact T.
      * assert (H : hidden v \/ is_function v).
        { destruct (hidden_dec v) as [H|V]; [now left|]. destruct (function_dec v) as [H|NF]; [now right|].
          assert (renderable v = true) by now apply renderable_iff. congruence. }
        assert (E' : render_item (Pair k v) = []) by (cbn [render_item]; now rewrite E).
        rewrite E'. cbn [app]. destruct IH as [(ps & Ss & Ts & Rs)|[(j & I & U) Rs]].
        -- left. exists ps. split; [now apply entries_hidden|]. now split.
        -- right. split; [exists j; split; [now right|exact U]|exact Rs].
    + destruct (proj2 G l (or_introl eq_refl)) as (k & v & -> & Vk & V & Gk & Gv).
      cbn [within] in Fi. inversion Fi as [|? ? Fk Fi']; subst. inversion Fi' as [|? ? Fv _]; subst.
      assert (E : forall rest, render_item (KvList [k; v]) ++ rest = render k ++ render v ++ rest).
      { intros rest. cbn [render_item flat_map]. now rewrite app_nil_r, <- app_assoc. }
      destruct (format_dec f) as [Y|N].
      * destruct (Fk Vk Gk) as [(tk & Sk & Rk)|[U Rk]].
        -- assert (K : forall a g acc s' rest, result a = None ->
             run f (push (EvenBlock g acc :: s') a) (render k ++ rest) = run f (push (OddBlock g acc tk :: s') a) rest).
           { intros a g acc s' rest Ra. rewrite Rk; [|exact Ra|now left].
             cbn [feed stack push feed_one]. rewrite push_push. now rewrite Y. }
           destruct (Fv V Gv) as [(t & S & R)|[U R]].
           ++ apply (Fed tk t).
              ** intros ps Sp. now apply entries_list_yaml.
              ** intros N. contradiction.
              ** intros a g acc s' rest Ra. rewrite E, K by exact Ra.
                 rewrite R; [|exact Ra|now left]. cbn [feed stack push feed_one]. now rewrite push_push.
           ++ right. apply Ref.
              ** intros ms its I. now apply (unfit_list_value f ms its k v).
              ** intros g acc s' a rest Ra. rewrite E, K by exact Ra. apply R; [exact Ra|now left].
        -- right. apply Ref.
           ++ intros ms its I. now apply (unfit_list_key_yaml f ms its k v).
           ++ intros g acc s' a rest Ra. rewrite E. apply Rk; [exact Ra|now left].
      * destruct (text_value_dec k) as [[s T]|T].
        -- destruct (render_text k s Vk T) as (g0 & x & Tx & Ek).
           assert (K : forall a g acc s' rest, result a = None ->
             run f (push (EvenBlock g acc :: s') a) (render k ++ rest) =
             run f (push (OddBlock g acc (Leaf None (SText s)) :: s') a) rest).
           { intros a g acc s' rest Ra. rewrite Ek. cbn [app].
             rewrite (run_text f (push (EvenBlock g acc :: s') a) g0 x s rest Ra Tx).
             cbn [feed stack push feed_one]. rewrite push_push. now rewrite (text_as_key f g0 x s N Tx). }
           destruct (Fv V Gv) as [(t & S & R)|[U R]].
           ++ apply (Fed (Leaf None (SText s)) t).
              ** intros ps Sp. now apply entries_list.
              ** intros _. now exists s.
              ** intros a g acc s' rest Ra. rewrite E, K by exact Ra.
                 rewrite R; [|exact Ra|right; exact Logic.I]. cbn [feed stack push feed_one]. now rewrite push_push.
           ++ right. apply Ref.
              ** intros ms its I. now apply (unfit_list_value f ms its k v).
              ** intros g acc s' a rest Ra. rewrite E, K by exact Ra. apply R; [exact Ra|right; exact Logic.I].
        -- right. apply Ref.
           ++ intros ms its I. now apply (unfit_list_key f ms its k v).
           ++ intros g acc s' a rest Ra. rewrite E. eapply key_refused; eauto. reflexivity.
Qed.

Lemma outcome_all f v : visible v -> regular v -> outcome f v.
Proof.
  induction v as [ms|ms b|ms a|ms n|ms l p IH|ms items IH|ms|ms] using value_ind'; intros V G.
  - destruct f; try (left; exists (Leaf None SNull); split; [constructor; discriminate|]; intros a rest R A;
      rewrite render_visible by exact V; cbn [app]; now rewrite run_scalar by (auto using free_accepts)).
    right. split; [now constructor|]. intros a rest R A. rewrite render_visible by exact V. cbn. eauto.
  - left. exists (Leaf None (SBool b)). split; [constructor|]. intros a rest R A. rewrite render_visible by exact V. cbn [app].
    rewrite run_scalar; [now destruct f|exact R|now destruct f|now apply free_accepts].
  - destruct (atom_dec f a) as [Fit|[K (z & -> & L)]].
    + left. exists (Leaf (shown_tag f ms) (leaf f a)). split; [now constructor|]. intros s rest R A.
      rewrite render_visible by exact V. cbn [app]. destruct (atom_fits f a Fit) as [U Lf].
      rewrite run_scalar; [now rewrite Lf, shown_tag_eq|exact R|exact U|now apply free_accepts].
    + right. split; [now constructor|]. intros s rest R A. rewrite render_visible by exact V. cbn [app run offer].
      rewrite too_big by auto. eauto.
  - destruct n as [a|l|l|x|].
    + destruct (atom_dec f a) as [Fit|[K (z & -> & L)]].
      * left. exists (Leaf None (leaf f a)). split; [now constructor|]. intros s rest R A.
        rewrite render_visible by exact V. cbn [app emit_native]. destruct (atom_fits f a Fit) as [U Lf].
        rewrite run_scalar; [rewrite Lf; now destruct f|exact R|exact U|now apply free_accepts].
      * right. split; [now constructor|]. intros s rest R A. rewrite render_visible by exact V. cbn [app emit_native run offer].
        rewrite too_big by auto. eauto.
    + left. eexists. split; [constructor|]. intros s rest R A. rewrite render_visible by exact V.
      apply run_elems; auto. now inversion G.
    + left. eexists. split; [constructor|]. intros s rest R A. rewrite render_visible by exact V.
      apply run_elems; auto. now inversion G.
    + left. eexists. split; [constructor|]. intros s rest R A. rewrite render_visible by exact V.
      apply run_array; auto. now inversion G.
    + inversion G.
  - assert (Gl : p = true /\ forall v, In v l -> hidden v \/ regular v) by (inversion G; now subst).
    destruct Gl as [-> Gl]. destruct (outcome_list f l Gl IH) as [(ts & S & R)|[(v & I & Vv & U) R]].
    + left. exists (Seq (shown_tag f ms) ts). split; [now constructor|]. intros a rest Ra A.
      rewrite render_visible by exact V. cbn [app]. rewrite <- app_assoc.
      rewrite run_seq_start by (auto using free_accepts). rewrite R by exact Ra. cbn [app].
      rewrite run_seq_end by exact Ra. unfold from_vec. now rewrite shown_tag_eq.
    + right. split; [now apply (unfit_list f ms l v)|]. intros a rest Ra A.
      rewrite render_visible by exact V. cbn [app]. rewrite <- app_assoc.
      rewrite run_seq_start by (auto using free_accepts). now apply R.
  - assert (Gi : regular_items items) by (inversion G; now split).
    destruct (outcome_items f items Gi IH) as [(ps & S & T & R)|[(i & I & U) R]].
    + left. exists (Map (shown_tag f ms) (collected f ps)). split.
      * apply shows_block with (ps := ps); [exact S|]. apply arranged_collected. intros ->. now apply T.
      * intros a rest Ra A. rewrite render_visible by exact V. cbn [app]. rewrite <- app_assoc.
        rewrite run_block_start by (auto using free_accepts). rewrite R by exact Ra. cbn [app].
        rewrite run_block_end by exact Ra. now rewrite from_pairs_eq, shown_tag_eq.
    + right. split; [now apply U|]. intros a rest Ra A.
      rewrite render_visible by exact V. cbn [app]. rewrite <- app_assoc.
      rewrite run_block_start by (auto using free_accepts). now apply R.
  - inversion G.
  - inversion G.
Qed.
