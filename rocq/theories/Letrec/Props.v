(** Splitting recursive lets (C09) and merging nested lets (C10): the properties. *)
From Coq Require Import String List Bool Arith Lia Permutation.
From Verif.Scope Require Import Model Spec Proofs.
From Verif.Simplify Require Import Compress.
From Verif.Letrec Require Import Tarjan TarjanSpec TarjanProofs Model Spec Proofs FlattenProofs SplitProofs.
Import ListNotations.
Local Open Scope string_scope.
Local Open Scope list_scope.

(** ** An interpretation to which the theorems apply: lets as systems of boolean
    equations.  The value of a let is whether its body can be true in a solution of the
    equations. *)
Fixpoint vectors (n : nat) : list (list bool) :=
  match n with 0 => [[]] | S n => flat_map (fun vs => [true :: vs; false :: vs]) (vectors n) end.
Fixpoint same (xs ys : list bool) : bool :=
  match xs, ys with [], [] => true | x :: xs, y :: ys => eqb x y && same xs ys | _, _ => false end.
Definition equations : interp.
Proof.
  refine (mkInterp bool
    (fun k xs => match k with KLiteral (PBool b) => b | KList => forallb (fun x => x) xs | KApp => existsb (fun x => x) xs | _ => negb (forallb (fun x => x) xs) end)
    (fun _ ps f => f (repeat true (List.length ps)))
    (fun _ names F B => existsb (fun vs => same (F vs) vs && B vs) (vectors (List.length names))) false _ _).
  - intros _ ps f g H. apply H.
  - intros _ ns f g b c H1 H2. induction (vectors (List.length ns)) as [|v l IH]; cbn; auto. rewrite H1, H2, IH. reflexivity.
Defined.
Lemma same_iff xs : forall ys, same xs ys = true <-> xs = ys.
Proof.
  induction xs as [|x xs IH]; intros [|y ys]; cbn; try (split; congruence). rewrite andb_true_iff, eqb_true_iff, IH. split; [intros []; congruence|].
  intros H. injection H. auto.
Qed.
Lemma vectors_iff n : forall vs, In vs (vectors n) <-> List.length vs = n.
Proof.
  induction n as [|n IH]; intros vs; cbn.
  - destruct vs; cbn; split; auto; try discriminate. intros [H|[]]; discriminate.
  - rewrite in_flat_map. split.
    + intros (x & Hx & [<-|[<-|[]]]); cbn; f_equal; apply IH, Hx.
    + destruct vs as [|v vs]; [discriminate|]. intros H. injection H as H. exists vs. split; [apply IH, H|]. destruct v; cbn; auto.
Qed.
Lemma solution_iff n (F : list bool -> list bool) (B : list bool -> bool) :
  existsb (fun vs => same (F vs) vs && B vs) (vectors n) = true <-> exists vs, List.length vs = n /\ F vs = vs /\ B vs = true.
Proof.
  rewrite existsb_exists. split.
  - intros (vs & Hv & H). apply andb_prop in H. destruct H as [H1 H2]. exists vs. split; [apply vectors_iff, Hv|]. split; auto. apply same_iff, H1.
  - intros (vs & L & E & H). exists vs. split; [apply vectors_iff, L|]. rewrite H, andb_true_r. apply same_iff, E.
Qed.
Lemma app_inj_length {A} (a b c d : list A) : List.length a = List.length c -> a ++ b = c ++ d -> a = c /\ b = d.
Proof.
  revert c. induction a as [|x a IH]; intros [|y c] L E; try discriminate; auto. cbn in *. injection L as L. injection E as -> E.
  destruct (IH c L E) as [-> ->]. auto.
Qed.
Lemma equations_merge : merges_lets equations.
Proof.
  intros rho env bs1 bs2 body. apply eq_true_iff_eq. cbn [den equations i_let]. cbv zeta. rewrite !solution_iff, app_length, !map_length. split.
  - intros (v1 & L1 & E1 & H). apply solution_iff in H. destruct H as (v2 & L2 & E2 & H).
    exists (v1 ++ v2). rewrite app_length. split; [lia|].
    assert (Ef : firstn (List.length bs1) (v1 ++ v2) = v1) by (rewrite <- L1, firstn_app, Nat.sub_diag, firstn_all; apply app_nil_r).
    assert (Es : skipn (List.length bs1) (v1 ++ v2) = v2) by (rewrite <- L1, skipn_app, Nat.sub_diag, skipn_all; reflexivity).
    change (D equations) with bool. rewrite Ef, Es. split; auto. etransitivity; [apply f_equal2; [exact E1|exact E2]|reflexivity].
  - intros (vs & L & E & H).
    assert (Ev : vs = firstn (List.length bs1) vs ++ skipn (List.length bs1) vs) by (symmetry; apply firstn_skipn).
    set (v1 := firstn (List.length bs1) vs) in *. set (v2 := skipn (List.length bs1) vs) in *.
    assert (L1 : List.length v1 = List.length bs1) by (apply firstn_length_le; lia).
    assert (L2 : List.length v2 = List.length bs2) by (unfold v2; rewrite skipn_length; lia).
    pose proof (eq_trans E Ev) as E'. clear E. rename E' into E. apply app_inj_length in E; [|rewrite map_length; auto]. destruct E as [E1 E2].
    exists v1. split; auto. split; auto. apply solution_iff. exists v2. auto.
Qed.
Lemma nth_reordered {A} (d : A) p l j i : nth_error p j = Some i -> nth j (reordered d p l) d = nth i l d.
Proof. intros E. unfold reordered. apply nth_error_nth. rewrite nth_error_map, E. reflexivity. Qed.
Lemma restored_reordered {A} (d : A) p l : Permutation p (seq 0 (List.length l)) -> restored d p (reordered d p l) = l.
Proof.
  intros P. pose proof (Permutation_length P) as Lp. rewrite seq_length in Lp. unfold restored. rewrite Lp.
  apply nth_ext with (d := d) (d' := d); [rewrite map_length, seq_length; auto|]. rewrite map_length, seq_length. intros i Hi.
  erewrite nth_error_nth; [|rewrite nth_error_map, (nth_error_nth' _ 0) by (rewrite seq_length; auto); reflexivity].
  rewrite seq_nth by auto. cbn [Nat.add]. apply nth_reordered, place_nth. eapply Permutation_in; [apply Permutation_sym, P|]. apply in_seq. lia.
Qed.
Lemma place_nth_error p : NoDup p -> forall i j, nth_error p j = Some i -> place p i = j.
Proof. intros N i j E. eapply NoDup_nth_error_eq; [exact N|apply place_nth; eapply nth_error_In; eauto|exact E]. Qed.
Lemma reordered_restored {A} (d : A) p l : Permutation p (seq 0 (List.length l)) -> reordered d p (restored d p l) = l.
Proof.
  intros P. pose proof (Permutation_length P) as Lp. rewrite seq_length in Lp.
  assert (N : NoDup p) by (eapply Permutation_NoDup; [apply Permutation_sym, P|apply seq_NoDup]).
  apply nth_ext with (d := d) (d' := d); [unfold reordered; rewrite map_length; auto|]. unfold reordered at 1. rewrite map_length. intros j Hj.
  destruct (nth_error p j) as [i|] eqn:E; [|apply nth_error_None in E; lia]. rewrite (nth_reordered d p _ j i E).
  assert (Hi : i < List.length l). { apply nth_error_In in E. apply (Permutation_in _ P) in E. apply in_seq in E. lia. }
  unfold restored. rewrite Lp. erewrite nth_error_nth; [|rewrite nth_error_map, (nth_error_nth' _ 0) by (rewrite seq_length; auto); reflexivity].
  rewrite seq_nth by auto. cbn [Nat.add]. rewrite (place_nth_error p N i j E). auto.
Qed.
Lemma equations_reorder : reorders_lets equations.
Proof.
  intros rho env bs body p P. apply eq_true_iff_eq. cbn [den equations i_let i_dangling]. rewrite !solution_iff. unfold reordered at 1. rewrite !map_length.
  pose proof (Permutation_length P) as Lp. rewrite seq_length in Lp. rewrite Lp. split.
  - intros (vs & L & E & H). exists (reordered false p vs). split; [unfold reordered; rewrite map_length; auto|].
    rewrite <- L in P. change (D equations) with bool in *. rewrite (restored_reordered false p vs P). split; auto. f_equal. exact E.
  - intros (ws & L & E & H). exists (restored false p ws). split; [unfold restored; rewrite map_length, seq_length; auto|]. split; auto.
    etransitivity; [symmetry; apply (restored_reordered false p); rewrite map_length; exact P|]. apply (f_equal (restored false p)). exact E.
Qed.

(** ** C09 *)

(** Components of a graph: every vertex is in exactly one, two vertices are in the same
    one exactly if each reaches the other, and edges lead into the same or an earlier
    component.  There is no panic and the recursion is as deep as the graph has
    vertices at most. *)
Theorem C09_components : forall deps, in_range deps -> exists cs, tarjan_scc deps = Done cs /\
  NoDup (List.concat cs) /\ (forall v, In v (List.concat cs) <-> v < List.length deps) /\
  (forall c, In c cs -> c <> []) /\
  (forall c x y, In c cs -> In x c -> (In y c <-> mutual deps x y)) /\
  (forall l c l', cs = l ++ c :: l' -> forall x y, In x c -> edge deps x y -> In y c \/ In y (List.concat l)).
Proof.
  intros deps R. destruct (tarjan_scc_ok deps R) as (cs & E & H1 & H2 & H3 & H4). exists cs. split; auto. split; auto. split; auto.
  split; [intros c Hc; apply (H3 c Hc)|]. split; auto. intros c x y Hc Hx. apply (H3 c Hc); auto.
Qed.

(** Any order of iterating over sets of names. *)
Definition any_order (order : list string -> list string) : Prop := forall l x, In x (order l) <-> In x l.
Lemma no_clash_free e : no_clash e -> forall n, In n (let_names e) -> ~ In n (free_vars e).
Proof. intros H n Hn. apply (not_free_iff n e 0), H, Hn. Qed.

(** Splitting never fails. *)
Theorem C09_total : forall order e, any_order order -> verify e = true -> distinct_names e -> no_clash e ->
  exists r, split_letrecs order e = Done r.
Proof. intros order e O V N F. destruct (split_letrecs_ok order O e [] V N (no_clash_free e F)) as (r & E & _). eauto. Qed.
(** It does not change what the expression means. *)
Theorem C09_meaning : forall I order e r rho, merges_lets I -> reorders_lets I -> any_order order ->
  verify e = true -> distinct_names e -> no_clash e -> split_letrecs order e = Done r -> den I rho [] r = den I rho [] e.
Proof.
  intros I order e r rho M R O V N F E. destruct (split_letrecs_ok order O e [] V N (no_clash_free e F)) as (r' & E' & P).
  replace r with r' by congruence. apply (s_den _ _ _ P); auto.
Qed.
(** Afterwards any two bindings of the same let depend on each other. *)
Theorem C09_minimal : forall order e r, any_order order -> verify e = true -> distinct_names e -> no_clash e ->
  split_letrecs order e = Done r -> minimal_lets r.
Proof.
  intros order e r O V N F E. destruct (split_letrecs_ok order O e [] V N (no_clash_free e F)) as (r' & E' & P).
  replace r with r' by congruence. apply (s_minimal _ _ _ P).
Qed.
(** The result passes verification, has no unresolved names the expression did not have,
    and nests exactly the bindings that were nested before. *)
Theorem C09_verified : forall order e r, any_order order -> verify e = true -> distinct_names e -> no_clash e ->
  split_letrecs order e = Done r ->
  verify r = true /\ (forall n, not_free n e -> not_free n r) /\ Permutation (map fst (chain r)) (map fst (chain e)).
Proof.
  intros order e r O V N F E. destruct (split_letrecs_ok order O e [] V N (no_clash_free e F)) as (r' & E' & P).
  replace r with r' by congruence. split; [apply (s_verify _ _ _ P)|]. split; [|apply (s_chain _ _ _ P)].
  intros n H. apply (not_free_iff n r' 0). intros K. apply (s_free _ _ _ P) in K. apply (not_free_iff n e 0) in K; auto.
Qed.

(** ** C10 *)

(** Merging does not change what the expression means, as long as directly nested lets bind
    distinct names.  Without that the claim is false of the code: see
    [C10_shadowing_refuted] below. *)
Theorem C10_meaning_partial : forall I e rho, merges_lets I -> verify e = true -> no_shadowing_chains e -> no_clash e ->
  den I rho [] (reflatten e) = den I rho [] e.
Proof. intros I e rho M V N F. apply (k_den _ _ _ (reflatten_ok e [] V N (no_clash_free e F))), M. Qed.
(** Afterwards no let with bindings is the body of another. *)
Theorem C10_flat : forall e, verify e = true -> no_shadowing_chains e -> no_clash e -> flat_lets (reflatten e).
Proof. intros e V N F. apply (k_flat _ _ _ (reflatten_ok e [] V N (no_clash_free e F))). Qed.
(** The result passes verification, has no new unresolved names, and its outermost lets
    have the bindings they had, with their demand annotations, in the same order. *)
Theorem C10_verified : forall e, verify e = true -> no_shadowing_chains e -> no_clash e ->
  verify (reflatten e) = true /\ (forall n, not_free n e -> not_free n (reflatten e)) /\ chain (reflatten e) = chain e.
Proof.
  intros e V N F. pose proof (reflatten_ok e [] V N (no_clash_free e F)) as P. split; [apply (k_verify _ _ _ P)|]. split; [|apply (k_chain _ _ _ P)].
  intros n H. apply (not_free_iff n _ 0). intros K. apply (k_free _ _ _ P) in K. apply (not_free_iff n e 0) in K; auto.
Qed.
(** Splitting and then merging, as the driver does. *)
Theorem C10_after_split : forall I order e r rho, merges_lets I -> reorders_lets I -> any_order order ->
  verify e = true -> no_shadowing_chains e -> no_clash e -> split_letrecs order e = Done r ->
  den I rho [] (reflatten r) = den I rho [] e /\ verify (reflatten r) = true /\ flat_lets (reflatten r).
Proof.
  intros I order e r rho M R O V N F E.
  assert (Dn : distinct_names e).
  { unfold distinct_names, no_shadowing_chains in *. clear -N. revert N. induction e as [v|bs body t IHbs IHb|i ps body IHb|k xs IHxs] using expr_ind'; auto.
    - rewrite !every_let_let. rewrite Forall_forall in IHbs. intros (H1 & H2 & H3). split; [|split; auto].
      intros Et. specialize (H1 Et). cbn [chain] in H1. rewrite map_app, map_map in H1. apply NoDup_app_l in H1. exact H1.
    - cbn [every_let]. rewrite !every_let_xs. rewrite Forall_forall in IHxs. auto. }
  destruct (split_letrecs_ok order O e [] V Dn (no_clash_free e F)) as (r' & E' & P). replace r with r' by congruence.
  assert (Q : preserved [] r' (reflatten r')).
  { apply reflatten_ok; [apply (s_verify _ _ _ P)|apply (s_shadowing _ _ _ P), N|].
    intros n Hn K. apply (no_clash_free e F n); [apply (s_let_names _ _ _ P), Hn|apply (s_free _ _ _ P), K]. }
  split; [rewrite (k_den _ _ _ Q); auto; apply (s_den _ _ _ P); auto|]. split; [apply (k_verify _ _ _ Q)|apply (k_flat _ _ _ Q)].
Qed.

(** The condition on shadowing is needed: two nested lets that bind the same name are
    merged into a single let in which the inner binding is out of reach. *)
Definition lit (b : bool) := ENode (KLiteral (PBool b)) [].
Definition bd (n : string) (e : expr) := mkBinding n e default_demand.
Definition c10_shadow := ELet [bd "x" (lit true)] (ELet [bd "x" (lit false)] (EVar (Bound 0 0 (Some "x"))) OtherLet) OtherLet.
Theorem C10_shadowing_refuted : exists I e rho, merges_lets I /\ verify e = true /\ distinct_names e /\ no_clash e /\
  den I rho [] (reflatten e) <> den I rho [] e.
Proof.
  exists equations, c10_shadow, (fun _ => false). split; [exact equations_merge|]. split; [reflexivity|].
  split; [cbn; repeat split; intros _; repeat (constructor; cbn; try tauto)|].
  split; [intros n _; unfold not_free; cbn; auto|]. cbn. discriminate.
Qed.

(** Examples. *)
Definition c09_in := ELet
  [bd "even" (ELam false ["n"] (ENode KApp [EVar (Bound 1 1 (Some "odd")); EVar (Bound 0 0 (Some "n"))]));
   bd "odd" (ELam false ["n"] (ENode KList [EVar (Bound 1 0 (Some "even")); EVar (Bound 1 3 (Some "k"))]));
   bd "main" (ENode KApp [EVar (Bound 0 0 (Some "even")); EVar (Bound 0 3 (Some "k"))]);
   bd "k" (lit true)]
  (ELam false ["y"] (ENode KList [EVar (Bound 1 2 (Some "main")); EVar (Bound 0 0 (Some "y"))])) OtherLet.
Definition c09_out := ELet [bd "k" (lit true)] (ELet
  [bd "odd" (ELam false ["n"] (ENode KList [EVar (Bound 1 1 (Some "even")); EVar (Bound 2 0 (Some "k"))]));
   bd "even" (ELam false ["n"] (ENode KApp [EVar (Bound 1 0 (Some "odd")); EVar (Bound 0 0 (Some "n"))]))]
  (ELet [bd "main" (ENode KApp [EVar (Bound 1 1 (Some "even")); EVar (Bound 2 0 (Some "k"))])]
    (ELam false ["y"] (ENode KList [EVar (Bound 1 0 (Some "main")); EVar (Bound 0 0 (Some "y"))])) OtherLet) OtherLet) OtherLet.
Example C09_example : verify c09_in = true /\ distinct_names c09_in /\ no_clash c09_in /\ any_order (@rev string) /\
  split_letrecs (@rev string) c09_in = Done c09_out /\ split_letrecs (fun l => l) c09_in = Done c09_out /\
  den equations (fun _ => false) [] c09_in = true /\ den equations (fun _ => false) [] c09_out = true.
Proof.
  split; [reflexivity|]. split; [cbn; repeat split; intros _; repeat (constructor; cbn; try (intros K; repeat destruct K as [K|K]; discriminate || contradiction))|].
  split; [intros n _; unfold not_free; cbn; auto 20|]. split; [intros l x; rewrite <- in_rev; tauto|].
  repeat split; reflexivity.
Qed.
Definition c10_out := ELet
  [bd "k" (lit true);
   bd "odd" (ELam false ["n"] (ENode KList [EVar (Bound 1 2 (Some "even")); EVar (Bound 1 0 (Some "k"))]));
   bd "even" (ELam false ["n"] (ENode KApp [EVar (Bound 1 1 (Some "odd")); EVar (Bound 0 0 (Some "n"))]));
   bd "main" (ENode KApp [EVar (Bound 0 2 (Some "even")); EVar (Bound 0 0 (Some "k"))])]
  (ELam false ["y"] (ENode KList [EVar (Bound 1 3 (Some "main")); EVar (Bound 0 0 (Some "y"))])) OtherLet.
Example C10_example : verify c09_out = true /\ no_shadowing_chains c09_out /\ no_clash c09_out /\ reflatten c09_out = c10_out.
Proof.
  split; [reflexivity|]. split; [cbn; repeat split; intros _; repeat (constructor; cbn; try (intros K; repeat destruct K as [K|K]; discriminate || contradiction))|].
  split; [intros n _; unfold not_free; cbn; auto 20|]. reflexivity.
Qed.

Print Assumptions C09_components.
Print Assumptions C09_total.
Print Assumptions C09_meaning.
Print Assumptions C09_minimal.
Print Assumptions C09_verified.
Print Assumptions C10_meaning_partial.
Print Assumptions C10_flat.
Print Assumptions C10_verified.
Print Assumptions C10_after_split.
Print Assumptions C10_shadowing_refuted.
