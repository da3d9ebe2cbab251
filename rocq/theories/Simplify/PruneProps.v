(** Dead code elimination: the properties (C07). *)
From Coq Require Import List Bool Arith String Lia.
From Verif.Scope Require Import Model Spec.
From Verif.Simplify Require Import Compress CompressSpec CompressProofs CompressProps Prune PruneSpec PruneProofs PruneProofs2 PruneProofs3 PruneProofs4.
Import ListNotations.
Open Scope string_scope.

(** ** An interpretation in which only uses matter: expand every let [N] times, and look
    up members in blocks. *)
Definition find_entry (m : string) (ks : list string) (xs : list tree) : option tree :=
  option_map snd (find (fun kx => String.eqb (fst kx) m) (combine ks xs)).
Definition access (k : kind) (xs : list tree) : tree :=
  match k, xs with
  | KLookup m, TNode (KBlock ks) ys :: fb =>
      match find_entry m ks ys with
      | Some x => x
      | None => match fb with f :: _ => f | [] => TNode (KLookup m) [] end
      end
  | _, _ => TNode k xs
  end.
Definition accessing (N : nat) : interp.
Proof.
  refine (mkInterp tree access (fun _ ps f => TLam ps (f (map TParam ps)))
    (fun _ names F B => B (iter N F (repeat TCut (List.length names)))) TDangling _ _).
  - intros _ ps f g H. rewrite H. reflexivity.
  - intros _ ns f g b c H1 H2. rewrite H2. f_equal. induction N as [|N IH]; cbn; auto. rewrite IH. apply H1.
Defined.
Lemma accessing_uses N : only_uses_matter (accessing N).
Proof.
  split.
  - intros t names us F F' B B' L HF HB. cbn. apply HB. clear HB. change (D (accessing N)) with tree in *.
    assert (H0 : agree_all (accessing N) us (repeat TCut (List.length names)) (repeat TCut (List.length names))).
    { rewrite <- L. clear. induction us as [|u us IH]; cbn; auto. split; auto. apply agree_eq. reflexivity. }
    assert (G : forall n, agree_all (accessing N) us (iter n F (repeat TCut (List.length names))) (iter n F' (repeat TCut (List.length names)))).
    { induction n as [|n IH]; cbn [iter]; auto. }
    apply G.
  - reflexivity.
  - intros m ms ks xs fb L Hm. cbn. unfold find_entry, entries_in.
    assert (G : forall ks xs, find (fun kx => String.eqb (fst kx) m) (combine ks xs) =
      find (fun kx : string * tree => String.eqb (fst kx) m)
        (combine (map fst (filter (fun kx => existsb (String.eqb (fst kx)) ms) (combine ks xs)))
                 (map snd (filter (fun kx => existsb (String.eqb (fst kx)) ms) (combine ks xs))))).
    { clear L ks xs. induction ks as [|k ks IH]; intros [|x xs]; try reflexivity. cbn.
      destruct (String.eqb k m) eqn:E.
      - apply String.eqb_eq in E. subst k. assert (existsb (String.eqb m) ms = true) as ->.
        { apply existsb_exists. exists m. split; auto. apply String.eqb_refl. }
        cbn. rewrite String.eqb_refl. reflexivity.
      - destruct (existsb (String.eqb k) ms); cbn; [rewrite E|]; apply IH. }
    change (D (accessing N)) with tree in *. rewrite <- G. reflexivity.
Qed.
Lemma accessing_drops N : drops_unused (accessing N).
Proof.
  split.
  - intros t names mask F B F' B' L HF HB. cbn. rewrite <- HB. f_equal.
    rewrite <- (sel_repeat TCut mask names L). clear HB. change (D (accessing N)) with tree in *.
    generalize N. clear N. intros N. induction N as [|N IH]; cbn; auto. rewrite <- HF. f_equal. exact IH.
  - intros t F B H. cbn. f_equal. destruct N; cbn; auto.
Qed.

(** Pruning a verified expression ends, without panic. *)
Theorem C07_total : forall e, well_formed e = true -> verify e = true -> exists e', prune e = Done e'.
Proof.
  intros e W V. destruct (passes_done e W V) as (st & E & _). exists (blank st None [] e). unfold prune. rewrite E. reflexivity.
Qed.
Lemma prune_done e e' : well_formed e = true -> prune e = Done e' -> exists st, settled e st /\ e' = blank st None [] e.
Proof.
  intros W H. unfold prune in H. destruct (passes _ e _) as [st| |] eqn:E; try discriminate. cbn in H. injection H as <-.
  exists st. split; auto. destruct (start_inv e W) as [I R]. eapply passes_settled; eauto.
Qed.
(** The meaning stays the same, in every interpretation in which only uses matter and for
    every expression without a lookup that falls back to the block looked into. *)
Theorem C07_meaning : forall I rho e e', only_uses_matter I -> well_formed e = true -> no_self_fallback e = true ->
  prune e = Done e' -> den I rho [] e = den I rho [] e'.
Proof.
  intros I rho e e' U W N H. destruct (prune_done e e' W H) as (st & S & ->).
  apply (blank_same I rho e st U W N S e [] [] [] []).
  - reflexivity.
  - intros i q sc bs body t (l & E). destruct l; discriminate.
  - reflexivity.
  - intros [|s]; reflexivity.
Qed.
(** What can be reached stays; what stays is needed or contains something needed; nothing
    else changes but demands, which promise nothing, and entries left out of blocks. *)
Theorem C07_keeps_reached : forall e e', well_formed e = true -> prune e = Done e' ->
  trimmed (fun p => exists r, below r p /\ needed e r) (fun p => ~ reached e p) [] e e'.
Proof.
  intros e e' W H. destruct (prune_done e e' W H) as (st & S & ->). apply (blank_trimmed e st W S e W None [] []). reflexivity.
Qed.
(** No surviving reference is to something eliminated, so that removing the eliminated
    bindings succeeds, and the two steps together keep the meaning. *)
Theorem C07_references_survive : forall e e', well_formed e = true -> refs_live [] e -> prune e = Done e' -> refs_live [] e'.
Proof.
  intros e e' W R H. destruct (prune_done e e' W H) as (st & S & ->). eapply (refs_blank e st W S e); eauto.
  - reflexivity.
  - intros i q sc bs body t (l & E). destruct l; discriminate.
  - intros [|s] b (k & E & _); discriminate.
Qed.
Theorem C07_verified : forall e e', well_formed e = true -> verify e = true -> prune e = Done e' -> verify e' = true.
Proof. intros e e' W V H. destruct (prune_done e e' W H) as (st & S & ->). apply blank_verify, V. Qed.
Theorem C07_prune_and_compress : forall I rho e, only_uses_matter I -> drops_unused I ->
  well_formed e = true -> verify e = true -> refs_live [] e -> no_self_fallback e = true ->
  exists e' e'', prune e = Done e' /\ compress e' = Done e'' /\ verify e'' = true /\ den I rho [] e'' = den I rho [] e.
Proof.
  intros I rho e U L W V R N. destruct (C07_total e W V) as (e' & P). pose proof (C07_references_survive e e' W R P) as R'.
  apply C08_accepts in R'. destruct R' as (e'' & C). exists e', e''. split; auto. split; auto.
  split; [eapply C08_verified; [|exact C]; eapply C07_verified; eauto|].
  rewrite <- (C08_meaning I rho e' e'' L C). symmetry. apply C07_meaning; auto.
Qed.

(** Examples: a chain of references through a default block let of which one member is
    used, an unused binding that refers to a used one, and metadata. *)
Definition var s b n := EVar (Bound s b (Some n)).
Definition c07_block := ELet [bd "p" (lit "one"); bd "q" (var 1 3 "note")]
  (ENode (KBlock ["p"; "q"]) [var 0 0 "p"; var 0 1 "q"]) DefaultBlockLet.
Definition c07_in := ELet
  [bd "unused" (var 0 2 "block"); bd "top" (ENode (KLookup "p") [var 0 2 "block"]); bd "block" c07_block; bd "note" (lit "doc")]
  (ENode KMeta [var 0 1 "top"; var 0 3 "note"]) OtherLet.
Definition multi (n : string) (e : expr) := mkBinding n e (demand_from_use_count 1).
Definition c07_out := ELet
  [bd "unused" elim; multi "top" (ENode (KLookup "p") [var 0 2 "block"]);
   multi "block" (ELet [multi "p" (lit "one"); multi "q" (var 1 3 "note")] (ENode (KBlock ["p"]) [var 0 0 "p"]) DefaultBlockLet);
   multi "note" (lit "doc")]
  (ENode KMeta [var 0 1 "top"; var 0 3 "note"]) OtherLet.
Example C07_example : prune c07_in = Done c07_out /\ well_formed c07_in = true /\ verify c07_in = true /\ no_self_fallback c07_in = true /\
  refs_live [] c07_in /\ only_uses_matter (accessing 3) /\ drops_unused (accessing 3) /\
  den (accessing 3) TName [] c07_in = TNode KMeta [TNode (KLiteral (PSym "one")) []; TNode (KLiteral (PSym "doc")) []] /\
  reached c07_in [2] /\ ~ reached c07_in [0].
Proof.
  split; [reflexivity|]. split; [reflexivity|]. split; [reflexivity|]. split; [reflexivity|].
  split; [apply C08_accepts; eexists; reflexivity|]. split; [apply accessing_uses|]. split; [apply accessing_drops|].
  split; [reflexivity|]. split.
  - apply (reached_reference _ [0; 1]); [|exists [Some ([], 4)], 0, 2, (Some "block"); split; reflexivity].
    apply reached_child; [|discriminate|discriminate].
    apply (reached_reference _ [0; 4]); [|exists [Some ([], 4)], 0, 1, (Some "top"); split; reflexivity].
    apply reached_child; [|discriminate|discriminate]. apply reached_child; [constructor| |discriminate].
    intros sc bs body t E. injection E as _ <- _ _. cbn. lia.
  - intros R. destruct (C07_total c07_in eq_refl eq_refl) as (e' & P). pose proof (C07_keeps_reached c07_in e' eq_refl P) as T.
    vm_compute in P. injection P as <-. destruct (passes_done c07_in eq_refl eq_refl) as (st & E & S).
    apply (reached_live c07_in st eq_refl S [0] R 0 [] [] _ _ _ (below_refl _) eq_refl); [cbn; lia|].
    vm_compute in E. injection E as <-. reflexivity.
Qed.

(** A lookup that falls back to the block looked into is taken for a use of that member
    only; when the member is missing, the result is the block without its other members. *)
Definition c07_self := ELet
  [bd "x" (ELet [bd "a" (lit "one")] (ENode (KBlock ["a"]) [var 0 0 "a"]) DefaultBlockLet)]
  (ENode (KLookup "c") [var 0 0 "x"; var 0 0 "x"]) OtherLet.
Theorem C07_self_fallback_refuted : ~ forall I rho e e', only_uses_matter I -> well_formed e = true -> verify e = true ->
  prune e = Done e' -> den I rho [] e = den I rho [] e'.
Proof.
  intros H. destruct (C07_total c07_self eq_refl eq_refl) as (e' & P).
  specialize (H (accessing 3) TName c07_self e' (accessing_uses 3) eq_refl eq_refl P).
  vm_compute in P. injection P as <-. vm_compute in H. discriminate.
Qed.

Print Assumptions C07_total.
Print Assumptions C07_meaning.
Print Assumptions C07_keeps_reached.
Print Assumptions C07_references_survive.
Print Assumptions C07_verified.
Print Assumptions C07_prune_and_compress.
Print Assumptions C07_self_fallback_refuted.
