(** Related types are included in one another. *)
From Coq Require Import Ascii String List Bool Arith Lia.
From Verif.Types Require Import Model Spec Basics RuleProofs SimProofs TermProofs TransProofs.
Import ListNotations.
Open Scope string_scope.
Open Scope list_scope.
Open Scope nat_scope.

(** ** Recursion through data only *)
Lemma in_data_fresh y t : occurs y t = false -> in_data y t = true.
Proof.
  induction t using type_induction; cbn [occurs in_data]; auto.
  - intros E. apply orb_false_iff in E as [E1 E2]. rewrite E1, E2. destruct t1; auto. destruct (data_con n); auto.
  - intros E. apply forallb_forall. rewrite Forall_forall in H. intros a Ha. apply H; [exact Ha|]. exact (existsb_none_In _ _ E _ Ha).
  - intros E. apply orb_false_iff in E as [E1 E2]. rewrite IHt, andb_true_r by exact E2.
    apply forallb_forall. rewrite Forall_forall in H. intros a Ha. apply H; [exact Ha|]. exact (existsb_none_In _ _ E1 _ Ha).
  - intros E. apply orb_false_iff in E as [E1 E2]. apply forallb_forall. rewrite Forall_forall in H. intros a Ha.
    apply (H a Ha). exact (existsb_none_In _ _ E1 _ Ha).
  - intros E. apply orb_false_iff in E as [-> ->]. reflexivity.
  - intros E. apply forallb_forall. rewrite Forall_forall in H. intros a Ha. apply H; [exact Ha|]. exact (existsb_none_In _ _ E _ Ha).
  - destruct (String.eqb x y); cbn; auto.
Qed.
Lemma occurs_unfold x y r : closed r -> forall t B, ground B t = true -> occurs y t = false -> occurs y (unfold_mu x t r) = false.
Proof.
  intros Gr. induction t using type_induction; intros B G; cbn [ground occurs unfold_mu] in *; auto; try discriminate.
  - intros E. apply orb_false_iff in E as [E1 E2]. rewrite !andb_true_iff in G. destruct G as [[Gf Ga] _].
    now rewrite (IHt1 B), (IHt2 B).
  - intros E. rewrite existsb_map. apply existsb_none. rewrite Forall_forall in H. intros a Ha.
    apply (H a Ha B (forallb_In _ _ G _ Ha)). exact (existsb_none_In _ _ E _ Ha).
  - intros E. apply orb_false_iff in E as [E1 E2]. rewrite !andb_true_iff in G. destruct G as [[Gn Gl] Ga].
    rewrite prefix_list_nonempty by now rewrite nonempty_map. cbn. rewrite (IHt B), orb_false_r by assumption.
    rewrite existsb_map. apply existsb_none. rewrite Forall_forall in H. intros a Ha'.
    apply (H a Ha' B (forallb_In _ _ Gl _ Ha')). exact (existsb_none_In _ _ E1 _ Ha').
  - intros E. apply orb_false_iff in E as [E1 E2]. rewrite E2, orb_false_r. rewrite andb_true_iff in G. destruct G as [G _].
    rewrite existsb_map. apply existsb_none. rewrite Forall_forall in H. intros a Ha. cbn. rewrite pty_map.
    apply (H a Ha B (forallb_In _ _ G _ Ha)). exact (existsb_none_In _ _ E1 _ Ha).
  - intros E. apply orb_false_iff in E as [E1 E2]. rewrite !andb_true_iff in G. destruct G as [Gf Ga].
    now rewrite (IHt1 B), (IHt2 B).
  - intros E. rewrite existsb_map. apply existsb_none. rewrite Forall_forall in H. intros a Ha.
    apply (H a Ha B (forallb_In _ _ G _ Ha)). exact (existsb_none_In _ _ E _ Ha).
  - intros E. destruct (String.eqb x0 x); [apply (ground_occurs r []); [exact Gr|intros []]|exact E].
  - intros E. destruct (String.eqb x0 x); [exact E|]. cbn. destruct (String.eqb x0 y); [reflexivity|]. cbn in *. now apply (IHt (x0 :: B)).
Qed.
Lemma in_data_unfold x y r : closed r -> forall t B, ground B t = true -> in_data y t = true -> in_data y (unfold_mu x t r) = true.
Proof.
  intros Gr. induction t using type_induction; intros B G; cbn [ground in_data unfold_mu] in *; auto; try discriminate.
  - rewrite !andb_true_iff in G. destruct G as [[Gf Ga] Gs].
    assert (O : forall a, ground B a = true -> negb (occurs y a) = true -> negb (occurs y (unfold_mu x a r)) = true).
    { intros a Gb E. apply negb_true_iff in E. rewrite (occurs_unfold x y r Gr a B); auto. }
    destruct t1 as [| | | |n|f z| | | | | | | | | | |]; try discriminate; cbn [unfold_mu].
    + destruct (data_con n); [now apply (IHt2 B)|now apply O].
    + intros E. apply negb_true_iff in E. apply negb_true_iff.
      assert (Gt : ground B (TApp (TApp f z) t2) = true).
      { change (ground B (TApp (TApp f z) t2)) with (ground B (TApp f z) && ground B t2 && true). now rewrite Gf, Ga. }
      exact (occurs_unfold x y r Gr _ B Gt E).
  - rewrite forallb_map. apply forallb_mono. rewrite Forall_forall in *. intros a Ha. apply (H a Ha B (forallb_In _ _ G _ Ha)).
  - rewrite !andb_true_iff in G. destruct G as [[Gn Gl] Ga]. rewrite !andb_true_iff. intros [E1 E2].
    rewrite prefix_list_nonempty by now rewrite nonempty_map. cbn. rewrite (IHt B), andb_true_r by assumption.
    rewrite forallb_map. revert E1. apply forallb_mono. rewrite Forall_forall in *. intros a Ha'. apply (H a Ha' B (forallb_In _ _ Gl _ Ha')).
  - rewrite andb_true_iff in G. destruct G as [G _]. rewrite forallb_map. apply forallb_mono. rewrite Forall_forall in *. intros a Ha. cbn.
    rewrite pty_map. apply (H a Ha B (forallb_In _ _ G _ Ha)).
  - rewrite !andb_true_iff in *. destruct G as [Ga Gb]. intros [E1 E2]. apply negb_true_iff in E1, E2.
    rewrite (occurs_unfold x y r Gr t1 B), (occurs_unfold x y r Gr t2 B); auto.
  - rewrite forallb_map. apply forallb_mono. rewrite Forall_forall in *. intros a Ha. apply (H a Ha B (forallb_In _ _ G _ Ha)).
  - intros _. destruct (String.eqb x0 x); [|reflexivity]. apply in_data_fresh, (ground_occurs r []); [exact Gr|intros []].
  - destruct (String.eqb x0 x); cbn; auto. rewrite !orb_true_iff. intros [E|E]; [now left|right]. now apply (IHt (x0 :: B)).
Qed.
Lemma data_recursive_unfold x r : closed r -> data_recursive r = true -> forall t B, ground B t = true ->
  data_recursive t = true -> data_recursive (unfold_mu x t r) = true.
Proof.
  intros Gr Dr. induction t using type_induction; intros B G; cbn [ground data_recursive unfold_mu] in *; auto; try discriminate.
  - rewrite !andb_true_iff in *. destruct G as [[Gf Ga] _]. intros [E1 E2]. split; [now apply (IHt1 B)|now apply (IHt2 B)].
  - rewrite forallb_map. apply forallb_mono. rewrite Forall_forall in *. intros a Ha. apply (H a Ha B (forallb_In _ _ G _ Ha)).
  - rewrite !andb_true_iff in G. destruct G as [[Gn Gl] Ga]. rewrite !andb_true_iff. intros [E1 E2].
    rewrite prefix_list_nonempty by now rewrite nonempty_map. cbn. rewrite (IHt B), andb_true_r by assumption.
    rewrite forallb_map. revert E1. apply forallb_mono. rewrite Forall_forall in *. intros a Ha'. apply (H a Ha' B (forallb_In _ _ Gl _ Ha')).
  - rewrite andb_true_iff in G. destruct G as [G _]. rewrite forallb_map. apply forallb_mono. rewrite Forall_forall in *. intros a Ha. cbn.
    rewrite pty_map. apply (H a Ha B (forallb_In _ _ G _ Ha)).
  - rewrite !andb_true_iff in *. destruct G as [Ga Gb]. intros [E1 E2]. split; [now apply (IHt1 B)|now apply (IHt2 B)].
  - rewrite forallb_map. apply forallb_mono. rewrite Forall_forall in *. intros a Ha. apply (H a Ha B (forallb_In _ _ G _ Ha)).
  - intros _. destruct (String.eqb x0 x); [exact Dr|reflexivity].
  - intros E. destruct (String.eqb x0 x); [exact E|]. cbn [data_recursive] in *. rewrite !andb_true_iff in *. destruct E as [E1 E2].
    split; [now apply (in_data_unfold x x0 r Gr t (x0 :: B))|now apply (IHt (x0 :: B))].
Qed.
Lemma data_recursive_parts t : is_mu t = false -> data_recursive t = true -> forall u, In u (parts t) -> data_recursive u = true.
Proof.
  intros M. destruct t as [| | | | |f x|l|l a|f o r|a b|l| | | |x b| |]; cbn [data_recursive parts]; try discriminate; intros G u Hin; try contradiction.
  - rewrite !andb_true_iff in G. destruct G as [Gf Gx]. destruct f as [| | | |n|f y| | | | | | | | | | |]; try contradiction.
    + destruct Hin as [<-|[]]. exact Gx.
    + cbn in Gf. rewrite !andb_true_iff in Gf. destruct f; try contradiction. destruct Hin as [<-|[<-|[]]]; [apply Gf|exact Gx].
  - exact (forallb_In _ _ G _ Hin).
  - rewrite !andb_true_iff in G. apply in_app_or in Hin as [Hin|[<-|[]]]; [exact (forallb_In _ _ (proj1 G) _ Hin)|apply G].
  - apply in_map_iff in Hin. destruct Hin as [[k p] [<- Hin]]. exact (forallb_In _ _ G _ Hin).
  - rewrite andb_true_iff in G. destruct Hin as [<-|[<-|[]]]; apply G.
  - exact (forallb_In _ _ G _ Hin).
Qed.

(** ** Ranks *)
Lemma rank_unfold x r : closed r -> forall t B, ground B t = true -> in_data x t = true -> rank (unfold_mu x t r) <= max (rank t) (rank r).
Proof.
  intros Gr.
  assert (ML : forall (f g : type -> nat) l m, Forall (fun a => f a <= max (g a) m) l -> list_max (map f l) <= max (list_max (map g l)) m).
  { intros f g l m F. induction F as [|a l Ha _ IH]; cbn; [lia|]. fold (list_max (map f l)). fold (list_max (map g l)). lia. }
  assert (MF : forall (f g : string * presence type -> nat) l m, Forall (fun a => f a <= max (g a) m) l -> list_max (map f l) <= max (list_max (map g l)) m).
  { intros f g l m F. induction F as [|a l Ha _ IH]; cbn; [lia|]. fold (list_max (map f l)). fold (list_max (map g l)). lia. }
  induction t using type_induction; intros B G; cbn [ground in_data unfold_mu rank] in *; try (intros _; lia); try discriminate.
  - rewrite !andb_true_iff in G. destruct G as [[Gf Ga] Gs].
    destruct t1 as [| | | |n|f z| | | | | | | | | | |]; try discriminate; cbn [unfold_mu].
    + destruct (data_con n) eqn:D; intros E.
      * specialize (IHt2 B Ga E). lia.
      * apply negb_true_iff in E. rewrite (unfold_fresh t2 B x r Ga E). lia.
    + intros E. apply negb_true_iff in E. change (TApp (unfold_mu x f r) (unfold_mu x z r)) with (unfold_mu x (TApp f z) r).
      cbn [occurs] in E. apply orb_false_iff in E as [E1 E2]. rewrite (unfold_fresh (TApp f z) B x r Gf E1), (unfold_fresh t2 B x r Ga E2). lia.
  - intros E. rewrite map_map. apply ML. rewrite Forall_forall in *. intros a Ha. apply (H a Ha B); [exact (forallb_In _ _ G _ Ha)|exact (forallb_In _ _ E _ Ha)].
  - rewrite !andb_true_iff in *. destruct G as [[Gn Gl] Ga]. intros [E1 E2]. rewrite prefix_list_nonempty by now rewrite nonempty_map. cbn [rank].
    specialize (IHt B Ga E2). rewrite map_map.
    assert (list_max (map (fun e => rank (unfold_mu x e r)) l) <= max (list_max (map rank l)) (rank r)); [|lia].
    apply ML. rewrite Forall_forall in *. intros a Ha'. apply (H a Ha' B); [exact (forallb_In _ _ Gl _ Ha')|exact (forallb_In _ _ E1 _ Ha')].
  - rewrite andb_true_iff in G. destruct G as [G _]. intros E. rewrite map_map. apply MF. rewrite Forall_forall in *. intros a Ha. cbn.
    rewrite pty_map. apply (H a Ha B); [exact (forallb_In _ _ G _ Ha)|exact (forallb_In _ _ E _ Ha)].
  - rewrite !andb_true_iff in *. destruct G as [Ga Gb]. intros [E1 E2]. apply negb_true_iff in E1, E2.
    rewrite (unfold_fresh t1 B x r Ga E1), (unfold_fresh t2 B x r Gb E2). lia.
  - intros E. rewrite map_map. apply ML. rewrite Forall_forall in *. intros a Ha. apply (H a Ha B); [exact (forallb_In _ _ G _ Ha)|exact (forallb_In _ _ E _ Ha)].
  - intros _. destruct (String.eqb x0 x); cbn; lia.
  - intros E. destruct (String.eqb x0 x) eqn:E0; cbn [rank]; [lia|]. cbn in E. now apply (IHt (x0 :: B)).
Qed.
(** Types in which parts are values rather than behaviour. *)
Definition is_leaf (t : type) : bool :=
  match t with TFun _ _ | TCon _ => true | TApp (TCon n) _ => negb (data_con n) | TApp _ _ => true | _ => false end.
Lemma rank_parts t : is_mu t = false -> forall u, In u (parts t) -> rank u <= rank t /\ (is_leaf t = true -> rank u < rank t).
Proof.
  intros M. destruct t as [| | | | |f x|l|l a|f o r|a b|l| | | |x b| |]; cbn [rank parts is_leaf]; try discriminate; intros u Hin; try contradiction.
  - destruct f as [| | | |n|f y| | | | | | | | | | |]; try contradiction.
    + destruct Hin as [<-|[]]. destruct (data_con n); cbn; split; intros; try discriminate; lia.
    + destruct f; try contradiction. cbn [rank]. destruct Hin as [<-|[<-|[]]]; destruct (data_con n); lia.
  - split; [now apply list_max_In|discriminate].
  - split; [|discriminate]. apply in_app_or in Hin as [Hin|[<-|[]]]; [apply (list_max_In rank) in Hin|]; lia.
  - split; [|discriminate]. apply in_map_iff in Hin. destruct Hin as [kp [<- Hin]]. now apply (list_max_In (fun kp => rank (pty (snd kp)))).
  - destruct Hin as [<-|[<-|[]]]; lia.
  - split; [now apply list_max_In|discriminate].
Qed.

Definition plain (d : bool) (t : type) : Prop := tame d t /\ data_recursive t = true.
Lemma plain_hereditary d : hereditary (plain d).
Proof.
  intros t (T & D) u Hin. split; [exact (tame_hereditary d t T u Hin)|]. destruct (is_mu t) eqn:M.
  - destruct t; try discriminate. destruct Hin as [<-|[]]. destruct T as (G & _). cbn in G.
    apply (data_recursive_unfold x (TMu x t) G D t [x] G). cbn in D. apply andb_true_iff in D. apply D.
  - now apply (data_recursive_parts t).
Qed.
Lemma rank_hereditary d k : hereditary (fun t => plain d t /\ rank t <= k).
Proof.
  intros t (T & L) u Hin. split; [exact (plain_hereditary d t T u Hin)|]. destruct (is_mu t) eqn:M.
  - destruct t; try discriminate. destruct Hin as [<-|[]]. destruct T as ((G & _) & D). cbn in G, D, L.
    apply andb_true_iff in D as [D _]. pose proof (rank_unfold x (TMu x t) G t [x] G D) as E. cbn in E. lia.
  - pose proof (rank_parts t M u Hin). lia.
Qed.

(** ** Sizes of values *)
Fixpoint vsize (v : value) : nat :=
  match v with
  | VList l => S (list_sum (map vsize l))
  | VBlock kvs => S (list_sum (map (fun kv => vsize (snd kv)) kvs))
  | _ => 1
  end.
Lemma vsize_list l v : In v l -> vsize v < vsize (VList l).
Proof. intros H. apply (list_sum_In vsize) in H. cbn. lia. Qed.
Lemma vsize_block kvs kv : In kv kvs -> vsize (snd kv) < vsize (VBlock kvs).
Proof. intros H. apply (list_sum_In (fun kv => vsize (snd kv))) in H. cbn. lia. Qed.

(** ** Membership by shape *)
Section Shapes.
Variable L : value -> type -> Prop.
Hypothesis L_leaf : forall v t, L v t -> is_leaf t = true.

Ltac shape H := inversion H; subst; eauto; match goal with X : L _ _ |- _ => apply L_leaf in X; discriminate X end.
Lemma has_list_inv v t : has L v (list_of t) -> exists l, v = VList l /\ Forall (fun v => has L v t) l.
Proof. intros H. shape H. Qed.
Lemma has_nonempty_inv v t : has L v (non_empty_of t) -> exists l, v = VList l /\ l <> [] /\ Forall (fun v => has L v t) l.
Proof. intros H. shape H. Qed.
Lemma has_dict_inv v t : has L v (dict_of t) -> exists kvs, v = VBlock kvs /\ Forall (fun kv => has L (snd kv) t) kvs.
Proof. intros H. shape H. Qed.
Lemma has_tuple_inv v ts : has L v (TTuple ts) -> exists l, v = VList l /\ Forall2 (has L) l ts.
Proof. intros H. shape H. Qed.
Lemma has_prefix_inv v ts t : has L v (TPrefix ts t) -> exists l1 l2, v = VList (l1 ++ l2) /\ Forall2 (has L) l1 ts /\ Forall (fun v => has L v t) l2.
Proof. intros H. shape H. Qed.
Lemma has_record_inv v f o r : has L v (TRecord f o r) -> exists kvs, v = VBlock kvs /\
  (forall k t, In (k, Required t) f -> exists v, get k kvs = Some v /\ has L v t) /\
  (forall k t v, In (k, Optional t) f -> get k kvs = Some v -> has L v t).
Proof. intros H. shape H. Qed.
Lemma has_union_inv v ts : has L v (TUnion ts) -> exists t, In t ts /\ has L v t.
Proof. intros H. shape H. Qed.
Lemma has_mu_inv v x b : has L v (TMu x b) -> has L v (unfold_mu x b (TMu x b)).
Proof. intros H. shape H. Qed.
Lemma has_never_inv v : has L v TNever -> False.
Proof. intros H. shape H. Qed.
Lemma has_symlit_inv v s : has L v (TSymLit s) -> v = VSym s.
Proof. intros H. shape H. Qed.
Lemma has_strlit_inv v s : has L v (TStrLit s) -> v = VStr s.
Proof. intros H. shape H. Qed.
Lemma has_leaf_inv v t : is_leaf t = true -> has L v t -> L v t.
Proof. intros E H. inversion H; subst; try discriminate; assumption. Qed.
End Shapes.

Section Sound.
Variable call : nat -> value -> value -> Prop.
Variable perform : nat -> value -> Prop.
Variable is_lens is_traversal : (value -> Prop) -> (value -> Prop) -> nat -> Prop.
Variable other : type -> nat -> Prop.
Hypothesis GROW : optics_grow is_lens is_traversal.
Variable d : bool.
Notation leaf := (leaf call perform is_lens is_traversal other).
Notation den := (den call perform is_lens is_traversal other).

Definition leaves (k : nat) : value -> type -> Prop := match k with O => fun _ _ => False | S k => leaf (den k) end.
Lemma den_has k v t : den k v t <-> has (leaves k) v t.
Proof. destruct k; reflexivity. Qed.
Lemma leaf_is_leaf D v t : leaf D v t -> is_leaf t = true.
Proof.
  destruct t as [| | | |n|f x|l|l a|f o r|a b|l| | | |x b| |]; cbn [Spec.leaf is_leaf]; try contradiction; auto.
  destruct f; auto. destruct (data_con n); [contradiction|reflexivity].
Qed.
Lemma leaves_leaf k v t : leaves k v t -> is_leaf t = true.
Proof. destruct k; [contradiction|apply leaf_is_leaf]. Qed.
(** Behaviour is compared through its parts. *)
Lemma leaf_iff (D D' : value -> type -> Prop) v t :
  (forall w u, In u (parts t) -> (D w u <-> D' w u)) -> leaf D v t -> leaf D' v t.
Proof.
  intros E. destruct t as [| | | |n|f x|l|l a|f o r|a b|l| | | |x b| |]; cbn [Spec.leaf parts]; cbn [parts] in E; try contradiction; auto.
  - destruct f as [| | | |n|f y| | | | | | | | | | |]; auto.
    + destruct (data_con n); [auto|]. destruct (String.eqb n "IO"); [|auto].
      intros (i & -> & H). exists i. split; [reflexivity|]. intros r Hr. apply E; [now left|auto].
    + destruct f; auto. destruct GROW as [G1 G2].
      destruct (String.eqb n "Lens"); [|destruct (String.eqb n "Traversal"); [|auto]].
      * intros (i & -> & H). exists i. split; [reflexivity|]. revert H.
        apply (G1 (fun w => D w y) (fun w => D w x)); intros w; apply E; [now left|right; now left].
      * intros (i & -> & H). exists i. split; [reflexivity|]. revert H.
        apply (G1 (fun w => D w y) (fun w => D w x)); intros w; apply E; [now left|right; now left].
  - intros (i & -> & H). exists i. split; [reflexivity|]. intros x r Hx Hc.
    apply E; [now right; left|]. apply (H x r); [|exact Hc]. apply E; [now left|exact Hx].
Qed.

(** ** The bound on nesting does not matter *)
Lemma has_transfer (L L' : value -> type -> Prop) j :
  (forall v t, L v t -> is_leaf t = true) ->
  (forall v t, plain d t /\ rank t <= j -> L v t -> L' v t) ->
  forall v t, plain d t /\ rank t <= j -> has L v t -> has L' v t.
Proof.
  intros HL HLL. 
  assert (M : forall n m v t, vsize v <= n -> head t <= m -> plain d t /\ rank t <= j -> has L v t -> has L' v t).
  { induction n as [n IHn] using lt_wf_ind. induction m as [m IHm] using lt_wf_ind. intros v t Hn Hm Q H.
    pose proof (rank_hereditary d j t Q) as HQ.
    assert (S : forall w u, vsize w < vsize v -> In u (parts t) -> has L w u -> has L' w u).
    { intros w u Hw Hu. apply (IHn (vsize w) ltac:(lia) (head u)); auto. }
    destruct H.
    - now apply has_prim. - apply has_str. - apply has_sym. - apply has_strlit. - apply has_symlit. - apply has_top.
    - apply has_list. rewrite Forall_forall in *. intros w Hw. apply S; [now apply vsize_list|now left|auto].
    - apply has_nonempty; [assumption|]. rewrite Forall_forall in *. intros w Hw. apply S; [now apply vsize_list|now left|auto].
    - apply has_dict. rewrite Forall_forall in *. intros w Hw. apply S; [now apply vsize_block|now left|auto].
    - apply has_tuple. cbn [parts] in S. clear -H S.
      assert (S' : forall w u, In w l -> In u ts -> has L w u -> has L' w u) by (intros w u Hw; apply S; now apply vsize_list).
      clear S. induction H; constructor; [apply S'; [now left|now left|assumption]|]. apply IHForall2. intros w u Hw Hu. apply S'; now right.
    - apply has_prefix; cbn [parts] in S.
      + assert (S' : forall w u, In w l1 -> In u ts -> has L w u -> has L' w u).
        { intros w u Hw Hu. apply S; [apply vsize_list, in_or_app; now left|apply in_or_app; now left]. }
        clear -H S'. induction H; constructor; [apply S'; [now left|now left|assumption]|]. apply IHForall2. intros w u Hw Hu. apply S'; now right.
      + rewrite Forall_forall in *. intros w Hw. apply S; [apply vsize_list, in_or_app; now right|apply in_or_app; right; now left|auto].
    - apply has_record.
      + intros k u Hin. destruct (H k u Hin) as (w & Hg & Hw). exists w. split; [exact Hg|]. apply get_In in Hg.
        apply S; [exact (vsize_block kvs (k, w) Hg)|cbn [parts]; apply in_map_iff; now exists (k, Required u)|exact Hw].
      + intros k u w Hin Hg. specialize (H0 k u w Hin Hg). apply get_In in Hg.
        apply S; [exact (vsize_block kvs (k, w) Hg)|cbn [parts]; apply in_map_iff; now exists (k, Optional u)|exact H0].
    - apply (has_union _ v t); [assumption|]. pose proof (list_max_In head ts t H). cbn [head] in Hm.
      apply (IHm (head t) ltac:(lia)); auto.
    - apply has_mu. pose proof (head_parts d x b (proj1 (proj1 Q))) as Hh.
      apply (IHm (head (unfold_mu x b (TMu x b))) ltac:(lia)); auto. apply HQ. now left.
    - apply has_leaf. auto. }
  intros v t Q H. now apply (M (vsize v) (head t)).
Qed.
Lemma rank_zero j w u : plain d u -> rank u <= 0 -> leaves j w u -> False.
Proof.
  intros _ Lu H. pose proof (leaves_leaf _ _ _ H) as E.
  destruct u as [| | | |n|f x|l|l a|f o r|a b|l| | | |x b| |]; try discriminate; cbn [rank] in Lu; try lia.
  destruct f; try lia. cbn [is_leaf] in E. destruct (data_con n); [discriminate|lia].
Qed.
Theorem den_stable k : forall k' v t, plain d t -> rank t <= k -> rank t <= k' -> (den k v t <-> den k' v t).
Proof.
  induction k as [|k IH]; intros k' v t P L L'.
  - rewrite !den_has. split; (apply (has_transfer _ _ 0); [apply leaves_leaf| |split; [exact P|lia]]);
      intros w u (Pu & Lu) H; exfalso; exact (rank_zero _ _ _ Pu Lu H).
  - destruct k' as [|k'].
    + rewrite !den_has. split; (apply (has_transfer _ _ 0); [apply leaves_leaf| |split; [exact P|lia]]);
        intros w u (Pu & Lu) H; exfalso; exact (rank_zero _ _ _ Pu Lu H).
    + assert (K : forall v u, plain d u /\ rank u <= min (S k) (S k') -> (leaves (S k) v u <-> leaves (S k') v u)).
      { intros w u (Pu & Lu). cbn [leaves].
        assert (E : is_leaf u = true -> forall w u', In u' (parts u) -> (den k w u' <-> den k' w u')).
        { intros Eu w' u' Hu'. pose proof (plain_hereditary d u Pu u' Hu') as Pu'.
          assert (Mu : is_mu u = false) by (destruct u; try discriminate; reflexivity).
          pose proof (proj2 (rank_parts u Mu u' Hu') Eu). apply IH; [exact Pu'|lia|lia]. }
        split; intros H; pose proof (E (leaf_is_leaf _ _ _ H)) as E'; revert H; apply leaf_iff; [exact E'|].
        intros w' u' Hu'. symmetry. auto. }
      rewrite !den_has. split; (apply (has_transfer _ _ (min (S k) (S k'))); [apply leaves_leaf| |split; [exact P|lia]]);
        intros w u Q; apply K, Q.
Qed.

(** ** Inclusion *)
Lemma leaves_pos k v t : leaves k v t -> exists k', k = S k' /\ leaf (den k') v t.
Proof. destruct k; [contradiction|]. eauto. Qed.

Theorem related_sound k : forall v s t, plain d s -> plain d t -> rank s <= k -> rank t <= k -> related s t -> den k v s -> den k v t.
Proof.
  induction k as [k IHk] using lt_wf_ind.
  assert (M : forall n m v s t, vsize v <= n -> head s + head t <= m -> plain d s /\ rank s <= k -> plain d t /\ rank t <= k ->
    related s t -> has (leaves k) v s -> has (leaves k) v t).
  { induction n as [n IHn] using lt_wf_ind. induction m as [m IHm] using lt_wf_ind. intros v s t Hn Hm Qs Qt Hr H.
    destruct (related_simulation s t Hr) as [->|St]; [exact H|].
    apply (step_parts (fun t => plain d t /\ rank t <= k)) in St; auto; [|apply rank_hereditary].
    set (R := fun a b => related a b /\ (plain d a /\ rank a <= k) /\ plain d b /\ rank b <= k) in St.
    assert (S : forall w a b, vsize w < vsize v -> R a b -> has (leaves k) w a -> has (leaves k) w b).
    { intros w a b Hw (Hab & Qa & Qb). apply (IHn (vsize w) ltac:(lia) (head a + head b)); auto. }
    assert (FA : forall l a b, (forall w, In w l -> vsize w < vsize v) -> R a b -> Forall (fun v => has (leaves k) v a) l -> Forall (fun v => has (leaves k) v b) l).
    { intros l a b Hl Hab F. rewrite Forall_forall in *. intros w Hw. apply (S w a b); auto. }
    assert (F2 : forall l ss ts, (forall w, In w l -> vsize w < vsize v) -> Forall2 R ss ts -> Forall2 (has (leaves k)) l ss -> Forall2 (has (leaves k)) l ts).
    { intros l ss ts Hl F. revert l Hl. induction F as [|a b ss ts Hab F IH]; intros l Hl F'; inversion F'; subst; constructor.
      - apply (S _ a b); auto. apply Hl. now left. - apply IH; [|assumption]. intros w Hw. apply Hl. now right. }
    assert (F2A : forall l ss t, (forall w, In w l -> vsize w < vsize v) -> Forall (fun s => R s t) ss -> Forall2 (has (leaves k)) l ss -> Forall (fun v => has (leaves k) v t) l).
    { intros l ss u Hl F F'. induction F'; constructor; inversion F; subst.
      - apply (S _ y u); auto. apply Hl. now left. - apply IHF'; [|assumption]. intros w Hw. apply Hl. now right. }
    pose proof (leaves_leaf k) as LL.
    assert (LF : forall a b k', k = Datatypes.S k' -> R a b -> rank a <= k' -> rank b <= k' -> forall w, den k' w a -> den k' w b).
    { intros a b k' -> (Hab & (Qa & _) & (Qb & _)) La Lb w. apply IHk; auto. }
    destruct St as [x b t Hu|s x b Ms Hu|t Mt|s Ms|s|s|n0 a b Cn Hab|a b Hab|a b c e H1 H2|a b c e H1 H2|a b c e H1 H2
      |ss ts F|ss t F|ss t Ne F|ss1 ss2 ts t F1 F3|ss1 ss2 s ts t F1 F3 Ft|ss s t F Ft|s t t' H1 H2
      |sf so sr tf t_open tr H1 H2 H3|sf t H1|s rows|a b c e H1 H2|ss t Mt Nt F|s ts Ms Us Nt E].
    - apply has_mu_inv in H; [|exact LL]. pose proof (head_parts d x b (proj1 (proj1 Qs))) as Hh. destruct Hu as (Hu & Qa & _).
      apply (IHm (head (unfold_mu x b (TMu x b)) + head t) ltac:(lia)) with (s := unfold_mu x b (TMu x b)); auto.
    - apply has_mu. pose proof (head_parts d x b (proj1 (proj1 Qt))) as Hh. destruct Hu as (Hu & _ & Qb).
      apply (IHm (head s + head (unfold_mu x b (TMu x b))) ltac:(lia)) with (s := s); auto.
    - now apply has_never_inv in H.
    - apply has_top.
    - apply has_symlit_inv in H; [|exact LL]. subst. apply has_sym.
    - apply has_strlit_inv in H; [|exact LL]. subst. apply has_str.
    - unfold covariant, mem in Cn. cbn [existsb] in Cn. rewrite !orb_true_iff, !String.eqb_eq in Cn.
      destruct Cn as [->|[->|[->|[->|Cn]]]]; [| | | |discriminate].
      + apply has_list_inv in H; [|exact LL]. destruct H as (l & -> & F). apply has_list. apply (FA l a b); auto. intros w. apply vsize_list.
      + apply has_leaf_inv in H; [|reflexivity]. apply leaves_pos in H. destruct H as (k' & Ek & i & -> & H).
        apply has_leaf. rewrite Ek. exists i. split; [reflexivity|]. intros r Hrun.
        destruct Qs as (_ & Ls), Qt as (_ & Lt). cbn in Ls, Lt. apply (LF a b k' Ek Hab); [lia|lia|auto].
      + apply has_dict_inv in H; [|exact LL]. destruct H as (l & -> & F). apply has_dict. rewrite Forall_forall in *.
        intros w Hw. apply (S _ a b); [now apply vsize_block|assumption|auto].
      + apply has_nonempty_inv in H; [|exact LL]. destruct H as (l & -> & Ne & F). apply has_nonempty; [exact Ne|]. apply (FA l a b); auto. intros w. apply vsize_list.
    - apply has_nonempty_inv in H; [|exact LL]. destruct H as (l & -> & Ne & F). apply has_list. apply (FA l a b); auto. intros w. apply vsize_list.
    - apply has_leaf_inv in H; [|reflexivity]. apply leaves_pos in H. destruct H as (k' & Ek & i & -> & H).
      apply has_leaf. rewrite Ek. exists i. split; [reflexivity|]. destruct Qs as (_ & Ls), Qt as (_ & Lt). change (Datatypes.S (max (Datatypes.S (rank a)) (rank b)) <= k) in Ls. change (Datatypes.S (max (Datatypes.S (rank c)) (rank e)) <= k) in Lt.
      destruct GROW as [G1 G2]. revert H. apply G1; [apply (LF a c k' Ek H1)|apply (LF b e k' Ek H2)]; lia.
    - apply has_leaf_inv in H; [|reflexivity]. apply leaves_pos in H. destruct H as (k' & Ek & i & -> & H).
      apply has_leaf. rewrite Ek. exists i. split; [reflexivity|]. destruct Qs as (_ & Ls), Qt as (_ & Lt). change (Datatypes.S (max (Datatypes.S (rank a)) (rank b)) <= k) in Ls. change (Datatypes.S (max (Datatypes.S (rank c)) (rank e)) <= k) in Lt.
      destruct GROW as [G1 G2]. revert H. apply G1; [apply (LF a c k' Ek H1)|apply (LF b e k' Ek H2)]; lia.
    - apply has_leaf_inv in H; [|reflexivity]. apply leaves_pos in H. destruct H as (k' & Ek & i & -> & H).
      apply has_leaf. rewrite Ek. exists i. split; [reflexivity|]. destruct Qs as (_ & Ls), Qt as (_ & Lt). change (Datatypes.S (max (Datatypes.S (rank a)) (rank b)) <= k) in Ls. change (Datatypes.S (max (Datatypes.S (rank c)) (rank e)) <= k) in Lt.
      destruct GROW as [G1 G2]. apply G2. revert H. apply G1; [apply (LF a c k' Ek H1)|apply (LF b e k' Ek H2)]; lia.
    - apply has_tuple_inv in H; [|exact LL]. destruct H as (l & -> & F'). apply has_tuple. apply (F2 l ss ts); auto. intros w. apply vsize_list.
    - apply has_tuple_inv in H; [|exact LL]. destruct H as (l & -> & F'). apply has_list. apply (F2A l ss t); auto. intros w. apply vsize_list.
    - apply has_tuple_inv in H; [|exact LL]. destruct H as (l & -> & F'). apply has_nonempty.
      + intros ->. inversion F'. now subst. + apply (F2A l ss t); auto. intros w. apply vsize_list.
    - apply has_tuple_inv in H; [|exact LL]. destruct H as (l & -> & F'). apply Forall2_app_inv_r in F'. destruct F' as (l1 & l2 & A1 & A2 & ->).
      apply has_prefix; [apply (F2 l1 ss1 ts)|apply (F2A l2 ss2 t)]; auto; intros w Hw; apply vsize_list, in_or_app; auto.
    - apply has_prefix_inv in H; [|exact LL]. destruct H as (l & l2 & -> & F' & FT). apply Forall2_app_inv_r in F'. destruct F' as (l1 & l1' & A1 & A2 & ->).
      rewrite <- app_assoc in *. apply has_prefix; [apply (F2 l1 ss1 ts)|apply Forall_app; split; [apply (F2A l1' ss2 t)|apply (FA l2 s t)]]; auto;
        intros w Hw; apply vsize_list; rewrite !in_app_iff; auto.
    - apply has_prefix_inv in H; [|exact LL]. destruct H as (l & l2 & -> & F' & FT).
      apply has_list, Forall_app. split; [apply (F2A l ss t)|apply (FA l2 s t)]; auto; intros w Hw; apply vsize_list, in_or_app; auto.
    - apply has_nonempty_inv in H; [|exact LL]. destruct H as (l & -> & Ne & F). destruct l as [|w l]; [contradiction|]. inversion F; subst.
      apply (has_prefix _ [w] l); [constructor; [|constructor]|].
      + apply (S w s t); auto. apply vsize_list. now left.
      + apply (FA l s t'); auto. intros w' Hw'. apply vsize_list. now right.
    - apply has_record_inv in H; [|exact LL]. destruct H as (kvs & -> & A1 & A2). apply has_record.
      + intros k0 u Hin. destruct (H1 k0 u Hin) as (s & Hs & Hsu). apply get_In in Hs. destruct (A1 k0 s Hs) as (w & Hg & Hw).
        exists w. split; [exact Hg|]. apply get_In in Hg. apply (S w s u); auto. exact (vsize_block kvs (k0, w) Hg).
      + intros k0 u w Hin. exfalso. destruct Qt as (((_ & _ & Du) & _) & _). exact (records_required d _ _ _ _ _ Du Hin).
    - exfalso. exact (record_dict_apart d sf t (proj1 (proj1 Qs)) (proj1 (proj1 Qt))).
    - apply has_dict_inv in H; [|exact LL]. destruct H as (kvs & -> & _). apply has_record; [intros ? ? []|intros ? ? ? []].
    - apply has_leaf_inv in H; [|reflexivity]. apply leaves_pos in H. destruct H as (k' & Ek & f & -> & H).
      apply has_leaf. rewrite Ek. exists f. split; [reflexivity|]. destruct Qs as (_ & Ls), Qt as (_ & Lt). change (Datatypes.S (max (rank a) (rank b)) <= k) in Ls. change (Datatypes.S (max (rank c) (rank e)) <= k) in Lt.
      intros x r Hx Hc. apply (LF b e k' Ek H2); [lia|lia|]. apply (H x r); [|exact Hc]. apply (LF c a k' Ek H1); [lia|lia|exact Hx].
    - apply has_union_inv in H; [|exact LL]. destruct H as (s & Hin & H). rewrite Forall_forall in F. destruct (F s Hin) as (Hst & Qa & _).
      pose proof (list_max_In head ss s Hin). cbn [head] in Hm. apply (IHm (head s + head t) ltac:(lia)) with (s := s); auto.
    - apply Exists_exists in E. destruct E as (u & Hin & (Hsu & _ & Qu)). apply (has_union _ v u); [exact Hin|].
      pose proof (list_max_In head ts u Hin). cbn [head] in Hm. apply (IHm (head s + head u) ltac:(lia)) with (s := s); auto. }
  intros v s t Ps Pt Ls Lt Hr. rewrite !den_has. apply (M (vsize v) (head s + head t)); auto.
Qed.
Theorem inhabits_sound v s t : plain d s -> plain d t -> related s t ->
  inhabits call perform is_lens is_traversal other v s -> inhabits call perform is_lens is_traversal other v t.
Proof.
  intros Ps Pt Hr H. unfold inhabits in *.
  apply (den_stable (rank s) (max (rank s) (rank t))) in H; [|exact Ps|lia|lia].
  apply (den_stable (rank t) (max (rank s) (rank t))); [exact Pt|lia|lia|].
  apply (related_sound _ v s t Ps Pt); auto; lia.
Qed.
End Sound.
