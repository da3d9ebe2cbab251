(** Loading ends, finds cycles, and loads everything that is imported. *)
From Coq Require Import List Bool Arith Lia Relations.
From Verif.Imports Require Import Model Spec.
Import ListNotations.

Lemma path_eqb_eq : forall a b, path_eqb a b = true <-> a = b.
Proof.
  induction a as [|x a IH]; destruct b as [|y b]; simpl; split; intros H; try discriminate; auto.
  - apply andb_true_iff in H. destruct H as [H1 H2]. apply Nat.eqb_eq in H1. apply IH in H2. congruence.
  - injection H as -> ->. rewrite Nat.eqb_refl. simpl. apply IH. reflexivity.
Qed.
Lemma path_eqb_refl : forall a, path_eqb a a = true.
Proof. intros a. apply path_eqb_eq. reflexivity. Qed.
Lemma path_dec : forall a b : path, {a = b} + {a <> b}.
Proof. intros a b. destruct (path_eqb a b) eqn:E; [left; apply path_eqb_eq, E | right; intros H; apply path_eqb_eq in H; congruence]. Qed.

Lemma mem_in : forall a l, existsb (path_eqb a) l = true <-> In a l.
Proof.
  intros a l. rewrite existsb_exists. split.
  - intros (x & H1 & H2). apply path_eqb_eq in H2. subst. exact H1.
  - intros H. exists a. split; [exact H | apply path_eqb_refl].
Qed.

(** * Cycles *)

Definition edge (es : list (path * path)) (a b : path) : Prop := In (a, b) es.

Inductive walk (es : list (path * path)) : path -> list path -> path -> Prop :=
| walk_nil a : walk es a [] a
| walk_cons a b l c : In (a, b) es -> walk es b l c -> walk es a (a :: l) c.

Lemma walk_split : forall es l1 a l2 b c, walk es b (l1 ++ a :: l2) c -> walk es a (a :: l2) c.
Proof.
  induction l1 as [|x l1 IH]; simpl; intros a l2 b c H; inversion H; subst; [assumption | eapply IH; eauto].
Qed.

Lemma shorten : forall es l a c, walk es a l c -> exists l', walk es a l' c /\ NoDup l'.
Proof.
  induction l as [|x l IH]; intros a c H; inversion H; subst.
  - exists []. split; [constructor | constructor].
  - match goal with W : walk es ?b l c |- _ => apply IH in W; destruct W as (l' & W & N) end.
    destruct (in_dec path_dec x l') as [I_ | I_].
    + apply in_split in I_. destruct I_ as (l1 & l2 & ->). exists (x :: l2). split.
      * eapply walk_split; eauto.
      * clear -N. induction l1; simpl in N; [exact N | inversion N; auto].
    + exists (x :: l'). split; [econstructor; eauto | constructor; assumption].
Qed.

Lemma walk_sources : forall es l a c, walk es a l c -> incl l (map fst es).
Proof.
  induction l as [|x l IH]; intros a c H; [intros y [] |]. inversion H; subst.
  intros y [<- | Y]; [apply in_map_iff; eexists; split; [|eassumption]; reflexivity | eapply IH; eauto].
Qed.

Lemma reach_walk : forall es l a c k from, walk es a l c -> length l <= k -> In a from -> In c (reach k es from).
Proof.
  induction l as [|x l IH]; intros a c k from H L F; inversion H; subst.
  - destruct k; simpl; [exact F | apply in_or_app; left; exact F].
  - destruct k; simpl in *; [lia|]. apply in_or_app. right. eapply IH; [eassumption | lia |].
    apply in_flat_map. eexists. split; [eassumption|]. simpl.
    rewrite (proj2 (mem_in _ _) F). left. reflexivity.
Qed.

Lemma walk_closure : forall es a c, clos_refl_trans path (edge es) a c -> exists l, walk es a l c.
Proof.
  intros es a c H. apply clos_rt_rt1n in H. induction H as [|a b c E _ (l & W)].
  - exists []. constructor.
  - exists (a :: l). econstructor; eauto.
Qed.

Lemma reach_sound : forall es k from c, In c (reach k es from) ->
  exists a, In a from /\ clos_refl_trans path (edge es) a c.
Proof.
  induction k as [|k IH]; simpl; intros from c H.
  - exists c. split; [exact H | apply rt_refl].
  - apply in_app_or in H. destruct H as [H | H]; [exists c; split; [exact H | apply rt_refl]|].
    apply IH in H. destruct H as (b & B & R). apply in_flat_map in B. destruct B as ([x y] & E & B). simpl in B.
    destruct (existsb (path_eqb x) from) eqn:M; [|destruct B]. destruct B as [-> | []].
    apply mem_in in M. exists x. split; [exact M|]. eapply rt_trans; [apply rt_step; exact E | exact R].
Qed.

Lemma rt_t : forall (A : Type) (R : A -> A -> Prop) a b c, R a b -> clos_refl_trans A R b c -> clos_trans A R a c.
Proof.
  intros A R a b c H K. apply clos_rt_rtn1 in K. induction K as [|c d K1 K2 IH].
  - apply t_step, H.
  - eapply t_trans; [exact IH | apply t_step, K1].
Qed.
Lemma t_first : forall (A : Type) (R : A -> A -> Prop) a c, clos_trans A R a c ->
  exists b, R a b /\ clos_refl_trans A R b c.
Proof.
  intros A R a c H. induction H as [a c H | a b c H1 (x & X1 & X2) H2 _].
  - exists c. split; [exact H | apply rt_refl].
  - exists x. split; [exact X1|]. eapply rt_trans; [exact X2 | apply clos_t_rt in H2 || idtac].
    clear -H2. induction H2; [apply rt_step; assumption | eapply rt_trans; eauto].
Qed.

Lemma cyclic_sound : forall es c, cyclic_node es = Some c -> clos_trans path (edge es) c c.
Proof.
  intros es c H. unfold cyclic_node in H. destruct (find _ _) as [[a b]|] eqn:F; [|discriminate].
  injection H as <-. apply find_some in F. destruct F as [F1 F2]. unfold on_cycle in F2. simpl in *.
  apply mem_in, reach_sound in F2. destruct F2 as (x & [<- | []] & R).
  eapply rt_t; [exact F1 | exact R].
Qed.

Lemma cyclic_complete : forall es, cyclic_node es = None -> forall c, ~ clos_trans path (edge es) c c.
Proof.
  intros es H c K. unfold cyclic_node in H. destruct (find _ _) eqn:F; [discriminate|].
  apply t_first in K. destruct K as (b & E & R).
  pose proof (find_none _ _ F (c, b) E) as N. unfold on_cycle in N. simpl in N.
  apply walk_closure in R. destruct R as (l & W). apply shorten in W. destruct W as (l' & W & D).
  assert (In c (reach (length es) es [b])) as I_.
  { eapply reach_walk; [exact W | | left; reflexivity].
    rewrite <- (map_length fst es). apply NoDup_incl_length; [exact D | eapply walk_sources; eauto]. }
  apply mem_in in I_. congruence.
Qed.

(** * The loader *)

Lemma lookup_in : forall A p (l : list (path * A)) a, lookup_path p l = Some a -> In (p, a) l.
Proof.
  induction l as [|[q b] l IH]; simpl; intros a H; [discriminate|].
  destruct (path_eqb p q) eqn:E; [|right; apply IH, H].
  apply path_eqb_eq in E. injection H as ->. subst. left. reflexivity.
Qed.

Section Loading.
Variables fs baked : path -> option file.

Lemma read_found : forall lib p at_ f, read_fs fs baked lib p = Some (at_, f) -> found_at fs baked p at_ f.
Proof.
  induction lib as [|d lib IH]; simpl; intros p at_ f H.
  - destruct (fs p) as [f'|] eqn:F.
    + injection H as <- <-. left. split; [exists []; reflexivity | exact F].
    + destruct (baked p) eqn:B; [|discriminate]. injection H as <- <-. right. auto.
  - destruct (fs (d ++ p)) as [f'|] eqn:F; [|apply IH, H].
    injection H as <- <-. left. split; [exists d; reflexivity | exact F].
Qed.

Definition extends (s s' : loader) : Prop :=
  (forall p v, lookup_path p (found s) = Some v -> lookup_path p (found s') = Some v) /\
  incl (edges s) (edges s').

Lemma extends_refl : forall s, extends s s.
Proof. intros s. split; [auto | apply incl_refl]. Qed.
Lemma extends_trans : forall s s' s'', extends s s' -> extends s' s'' -> extends s s''.
Proof. intros s s' s'' [A1 A2] [B1 B2]. split; [auto | eapply incl_tran; eauto]. Qed.

(** What holds of the loader at all times. *)
Record sane (s : loader) : Prop := {
  truthful : forall p at_ f, known s p at_ f -> found_at fs baked p at_ f;
  no_cycle : forall c, ~ clos_trans path (edge (edges s)) c c;
  real : forall a b, In (a, b) (edges s) -> asks s a b }.

(** The imports of the file known as [p] are all loaded and in the graph. *)
Definition done (s : loader) (p : path) : Prop :=
  forall q, asks s p q -> lookup_path q (found s) <> None /\ In (p, q) (edges s).

Definition achieves (s : loader) (p : path) (s' : loader) : Prop :=
  sane s' /\ extends s s' /\ lookup_path p (found s') <> None /\
  (forall q, lookup_path q (found s) = None \/ q = p \/ done s q -> done s' q).

Lemma asks_extends : forall s s' p q, extends s s' -> asks s p q -> asks s' p q.
Proof. intros s s' p q [E _] (at_ & w & K & I_). exists at_, w. split; [apply E, K | exact I_]. Qed.

Lemma done_extends : forall s s' p, extends s s' -> lookup_path p (found s) <> None -> done s p -> done s' p.
Proof.
  intros s s' p [E1 E2] K D q (at_ & w & A & I_).
  destruct (lookup_path p (found s)) as [v|] eqn:L; [|congruence].
  pose proof (E1 _ _ L) as L'. unfold known in A. rewrite L' in A. injection A as ->.
  destruct (D q) as [D1 D2]; [exists at_, w; split; [exact L | exact I_]|].
  split; [|apply E2, D2]. destruct (lookup_path q (found s)) as [u|] eqn:Q; [|congruence].
  rewrite (E1 _ _ Q). discriminate.
Qed.

Lemma all_achieve : forall ld,
  (forall s p s', sane s -> ld s p = Loaded s' -> achieves s p s') ->
  forall ws s s', sane s -> load_all ld s ws = Loaded s' ->
  sane s' /\ extends s s' /\ (forall w, In w ws -> lookup_path w (found s') <> None) /\
  (forall q, lookup_path q (found s) = None \/ done s q -> done s' q).
Proof.
  intros ld A. induction ws as [|w ws IH]; simpl; intros s s' S H.
  - injection H as <-. split; [exact S | split; [apply extends_refl | split; [intros w [] |]]].
    intros q [N | D]; [|exact D]. intros r (at_ & w & K & _). unfold known in K. congruence.
  - destruct (ld s w) as [s1| | |] eqn:E; try discriminate.
    destruct (A _ _ _ S E) as (S1 & X1 & K1 & D1).
    destruct (IH _ _ S1 H) as (S2 & X2 & K2 & D2).
    split; [exact S2 | split; [eapply extends_trans; eauto | split]].
    + intros v [<- | V]; [|apply K2, V].
      destruct (lookup_path w (found s1)) as [u|] eqn:Q; [|congruence].
      rewrite (proj1 X2 _ _ Q). discriminate.
    + intros q [N | D]; apply D2; right; apply D1; auto.
Qed.

Lemma load_achieves : forall fuel lib s p s', sane s -> load fs baked fuel lib s p = Loaded s' ->
  achieves s p s'.
Proof.
  induction fuel as [|k IH]; intros lib s p s' S H; simpl in H; [discriminate|].
  unfold load_source in H.
  assert (ST : exists s1 f at_, sane s1 /\ extends s s1 /\ edges s1 = edges s /\ known s1 p at_ f /\
     (forall q, q <> p -> lookup_path q (found s1) = lookup_path q (found s)) /\
     match f with
     | Data => Loaded s1
     | Source wanted =>
         match cyclic_node (edges s1 ++ map (pair p) wanted) with
         | Some c => Cyclic c
         | None => load_all (load fs baked k (match find_source_dir fs lib p with Some d => lib ++ [d] | None => lib end))
                     (Loader (found s1) (edges s1 ++ map (pair p) wanted)) wanted
         end
     end = Loaded s').
  { destruct (lookup_path p (found s)) as [[at_ f]|] eqn:L.
    - exists s, f, at_. split; [exact S | split; [apply extends_refl | split; [reflexivity | split; [exact L | split; [reflexivity | exact H]]]]].
    - destruct (read_fs fs baked lib p) as [[at_ f]|] eqn:R; [|discriminate].
      exists (Loader ((p, (at_, f)) :: found s) (edges s)), f, at_.
      assert (X : extends s (Loader ((p, (at_, f)) :: found s) (edges s))).
      { split; [|apply incl_refl]. intros q v Q. simpl.
        destruct (path_eqb q p) eqn:E; [|exact Q]. apply path_eqb_eq in E. subst. congruence. }
      split; [|split; [exact X | split; [reflexivity | split; [|split; [|exact H]]]]].
      + destruct S as [S1 S2 S3]. constructor.
        * intros q a g K. unfold known in K. simpl in K. destruct (path_eqb q p) eqn:E; [|apply S1, K].
          apply path_eqb_eq in E. injection K as <- <-. subst. eapply read_found, R.
        * exact S2.
        * intros a b I_. eapply asks_extends; [exact X | apply S3, I_].
      + unfold known. simpl. rewrite path_eqb_refl. reflexivity.
      + intros q N. simpl. destruct (path_eqb q p) eqn:E; [apply path_eqb_eq in E; congruence | reflexivity]. }
  clear H. destruct ST as (s1 & f & at_ & S1 & X1 & EE & K1 & O1 & H).
  destruct f as [wanted|].
  - destruct (cyclic_node _) eqn:CY; [discriminate|].
    set (s2 := Loader (found s1) (edges s1 ++ map (pair p) wanted)) in *.
    assert (S2 : sane s2).
    { destruct S1 as [T1 T2 T3]. constructor.
      - exact T1.
      - apply cyclic_complete, CY.
      - intros a b I_. simpl in I_. apply in_app_or in I_. destruct I_ as [I_ | I_]; [apply T3, I_|].
        apply in_map_iff in I_. destruct I_ as (w & E & W). injection E as <- <-.
        exists at_, wanted. split; [exact K1 | exact W]. }
    assert (X2 : extends s s2).
    { destruct X1 as [A1 A2]. split; [exact A1 | simpl; apply incl_appl, A2]. }
    apply all_achieve in H; [|intros; eapply IH; eauto | exact S2].
    destruct H as (S3 & X3 & K3 & D3).
    split; [exact S3 | split; [eapply extends_trans; eauto | split]].
    + rewrite (proj1 X3 _ _ K1). discriminate.
    + intros q Q. destruct (path_dec q p) as [-> | NE].
      * intros r (a & w & A & I_). unfold known in A. pose proof (proj1 X3 _ _ K1) as K'.
        rewrite K' in A. injection A as <- <-. split; [apply K3, I_|].
        apply (proj2 X3). simpl. apply in_or_app. right. apply in_map, I_.
      * apply D3. destruct Q as [Q | [Q | Q]]; [left; simpl; rewrite O1; assumption | congruence |].
        destruct (lookup_path q (found s)) as [v|] eqn:L.
        -- right. eapply done_extends; [exact X2 | congruence | exact Q].
        -- left. simpl. rewrite O1; assumption.
  - injection H as <-. split; [exact S1 | split; [exact X1 | split; [unfold known in K1; congruence|]]].
    intros q Q. destruct (path_dec q p) as [-> | NE].
    + intros r (a & w & A & I_). unfold known in *. congruence.
    + intros r (a & w & A & I_). unfold known in A. rewrite O1 in A by exact NE.
      destruct Q as [Q | [Q | Q]]; [congruence | congruence |].
      destruct (Q r) as [Q1 Q2]; [exists a, w; split; assumption|].
      split; [|rewrite EE; exact Q2].
      destruct (lookup_path r (found s)) as [v|] eqn:L; [|congruence].
      rewrite (proj1 X1 _ _ L). discriminate.
Qed.

Definition nothing : loader := Loader [] [].
Lemma nothing_sane : sane nothing.
Proof.
  constructor.
  - intros p at_ f H. discriminate.
  - intros c H. apply t_first in H. destruct H as (b & [] & _).
  - intros a b [].
Qed.

(** * A reported cycle is there *)

Lemma real_may : forall s a b, sane s -> asks s a b -> may_ask fs baked a b.
Proof. intros s a b S (at_ & w & K & I_). exists at_, w. split; [eapply truthful; eauto | exact I_]. Qed.

Lemma t_mono : forall (R Q : path -> path -> Prop) a b, (forall x y, R x y -> Q x y) ->
  clos_trans path R a b -> clos_trans path Q a b.
Proof. intros R Q a b M H. induction H; [apply t_step, M; assumption | eapply t_trans; eauto]. Qed.

Lemma all_cyclic : forall ld,
  (forall s p s', sane s -> ld s p = Loaded s' -> achieves s p s') ->
  (forall s p c, sane s -> ld s p = Cyclic c -> clos_trans path (may_ask fs baked) c c) ->
  forall ws s c, sane s -> load_all ld s ws = Cyclic c -> clos_trans path (may_ask fs baked) c c.
Proof.
  intros ld A C. induction ws as [|w ws IH]; simpl; intros s c S H; [discriminate|].
  destruct (ld s w) as [s1| | |] eqn:E; try discriminate.
  - eapply IH; [|exact H]. eapply A; eauto.
  - injection H as <-. eapply C; eauto.
Qed.

Lemma load_cyclic : forall fuel lib s p c, sane s -> load fs baked fuel lib s p = Cyclic c ->
  clos_trans path (may_ask fs baked) c c.
Proof.
  induction fuel as [|k IH]; intros lib s p c S H; simpl in H; [discriminate|].
  unfold load_source in H.
  assert (ST : exists s1 f at_, sane s1 /\ known s1 p at_ f /\
     match f with
     | Data => Loaded s1
     | Source wanted =>
         match cyclic_node (edges s1 ++ map (pair p) wanted) with
         | Some c => Cyclic c
         | None => load_all (load fs baked k (match find_source_dir fs lib p with Some d => lib ++ [d] | None => lib end))
                     (Loader (found s1) (edges s1 ++ map (pair p) wanted)) wanted
         end
     end = Cyclic c).
  { destruct (lookup_path p (found s)) as [[at_ f]|] eqn:L.
    - exists s, f, at_. split; [exact S | split; [exact L | exact H]].
    - destruct (read_fs fs baked lib p) as [[at_ f]|] eqn:R; [|discriminate].
      exists (Loader ((p, (at_, f)) :: found s) (edges s)), f, at_.
      split; [|split; [|exact H]].
      + destruct S as [S1 S2 S3]. constructor.
        * intros q a g K. unfold known in K. simpl in K. destruct (path_eqb q p) eqn:E; [|apply S1, K].
          apply path_eqb_eq in E. injection K as <- <-. subst. eapply read_found, R.
        * exact S2.
        * intros a b I_. destruct (S3 _ _ I_) as (a' & w & K & J). exists a', w. split; [|exact J].
          unfold known in *. simpl. destruct (path_eqb a p) eqn:E; [|exact K].
          apply path_eqb_eq in E. congruence.
      + unfold known. simpl. rewrite path_eqb_refl. reflexivity. }
  clear H. destruct ST as (s1 & f & at_ & S1 & K1 & H).
  destruct f as [wanted|]; [|discriminate].
  assert (RE : forall a b, In (a, b) (edges s1 ++ map (pair p) wanted) -> asks s1 a b).
  { intros a b I_. apply in_app_or in I_. destruct I_ as [I_ | I_]; [apply S1, I_|].
    apply in_map_iff in I_. destruct I_ as (w & E & W). injection E as <- <-.
    exists at_, wanted. split; [exact K1 | exact W]. }
  destruct (cyclic_node _) eqn:CY.
  - injection H as <-. apply cyclic_sound in CY. eapply t_mono; [|exact CY].
    intros x y E. eapply real_may; [exact S1 | apply RE, E].
  - eapply all_cyclic; [| |  | exact H].
    + intros; eapply load_achieves; eauto.
    + intros; eapply IH; eauto.
    + destruct S1 as [T1 T2 T3]. constructor; [exact T1 | apply cyclic_complete, CY | exact RE].
Qed.

(** * What is said to be missing is missing *)

Lemma read_none : forall lib p, read_fs fs baked lib p = None ->
  fs p = None /\ baked p = None /\ forall d, In d lib -> fs (d ++ p) = None.
Proof.
  induction lib as [|d lib IH]; simpl; intros p H.
  - destruct (fs p); [discriminate|]. destruct (baked p); [discriminate|].
    split; [reflexivity | split; [reflexivity | intros d []]].
  - destruct (fs (d ++ p)) eqn:F; [discriminate|]. destruct (IH _ H) as (A & B & C).
    split; [exact A | split; [exact B|]]. intros e [<- | E]; auto.
Qed.

Lemma all_unreadable : forall ld q ws s, load_all ld s ws = Unreadable q ->
  exists s' w, ld s' w = Unreadable q.
Proof.
  induction ws as [|w ws IH]; simpl; intros s H; [discriminate|].
  destruct (ld s w) as [s1| | |] eqn:E; try discriminate; [eapply IH; eauto|].
  injection H as <-. eauto.
Qed.

Lemma load_unreadable : forall fuel lib s p q, load fs baked fuel lib s p = Unreadable q ->
  fs q = None /\ baked q = None /\ forall d, In d lib -> fs (d ++ q) = None.
Proof.
  induction fuel as [|k IH]; intros lib s p q H; simpl in H; [discriminate|].
  destruct (load_source fs baked lib s p) as [[s1 f]| | |] eqn:L; try discriminate.
  - destruct f as [wanted|]; [|discriminate]. destruct (cyclic_node _); [discriminate|].
    apply all_unreadable in H. destruct H as (s' & w & H). apply IH in H. destruct H as (A & B & C).
    split; [exact A | split; [exact B|]]. intros d D. apply C.
    destruct (find_source_dir fs lib p); [apply in_or_app; left|]; exact D.
  - injection H as ->. unfold load_source in L. destruct (lookup_path p (found s)) as [[at_ f]|]; [discriminate|].
    destruct (read_fs fs baked lib p) as [[at_ f]|] eqn:R; [discriminate|].
    injection L as L. subst q. apply read_none, R.
Qed.

(** * Loading ends *)

(** The files being loaded, each imported by the next. *)
Fixpoint chain (es : list (path * path)) (st : list path) : Prop :=
  match st with
  | [] => True
  | p :: st' => match st' with [] => True | a :: _ => In (a, p) es end /\ chain es st'
  end.

Lemma chain_cons : forall es p a st, chain es (p :: a :: st) <-> In (a, p) es /\ chain es (a :: st).
Proof. intros. reflexivity. Qed.

Lemma chain_reach : forall es st p a, chain es (p :: st) -> In a st -> clos_trans path (edge es) a p.
Proof.
  induction st as [|b st IH]; intros p a C I_; [destruct I_|].
  apply chain_cons in C. destruct C as [C1 C2]. destruct I_ as [<- | I_].
  - apply t_step, C1.
  - eapply t_trans; [apply IH; eauto | apply t_step, C1].
Qed.

Lemma chain_mono : forall es es' st, incl es es' -> chain es st -> chain es' st.
Proof.
  intros es es'. induction st as [|p st IH]; intros M C; [exact Logic.I|].
  destruct st as [|a st]; [exact C|]. apply chain_cons in C. apply chain_cons.
  destruct C as [C1 C2]. split; [apply M, C1 | apply IH; assumption].
Qed.

Lemma chain_nodup : forall es st, (forall c, ~ clos_trans path (edge es) c c) -> chain es st -> NoDup st.
Proof.
  intros es. induction st as [|p st IH]; intros N C; [constructor|]. constructor.
  - intros I_. eapply N, chain_reach; eauto.
  - apply IH; [exact N|]. destruct st as [|a st]; [exact Logic.I | apply chain_cons in C; apply C].
Qed.

(** All the paths that can come up. *)
Variable universe : list path.
Hypothesis closed : forall p q, In p universe -> may_ask fs baked p q -> In q universe.

Lemma all_ends : forall ld st p ws s,
  (forall s q s', sane s -> ld s q = Loaded s' -> achieves s q s') ->
  (forall s q, sane s -> In q universe -> chain (edges s) (q :: p :: st) -> ld s q <> Starved) ->
  sane s -> (forall w, In w ws -> In w universe /\ In (p, w) (edges s)) -> chain (edges s) (p :: st) ->
  load_all ld s ws <> Starved.
Proof.
  intros ld st p. induction ws as [|w ws IH]; simpl; intros s A T S W C H; [discriminate|].
  destruct (ld s w) as [s1| | |] eqn:E; try discriminate.
  - destruct (A _ _ _ S E) as (S1 & X1 & _ & _).
    eapply (IH s1); auto.
    + intros v V. destruct (W v (or_intror V)) as [W1 W2]. split; [exact W1 | apply X1, W2].
    + eapply chain_mono; [apply X1 | exact C].
  - destruct (W w (or_introl eq_refl)) as [W1 W2]. eapply T; [exact S | exact W1 | | exact E].
    apply chain_cons. split; [exact W2 | exact C].
Qed.

Lemma load_ends : forall fuel lib s p st, sane s -> In p universe -> (forall a, In a st -> In a universe) ->
  chain (edges s) (p :: st) -> length universe <= fuel + length st ->
  load fs baked fuel lib s p <> Starved.
Proof.
  induction fuel as [|k IH]; intros lib s p st S P U C L H.
  - pose proof (chain_nodup _ _ (no_cycle _ S) C) as N.
    assert (length (p :: st) <= length universe).
    { apply NoDup_incl_length; [exact N|]. intros a [<- | I_]; auto. }
    simpl in *. lia.
  - simpl in H. unfold load_source in H.
    assert (ST : exists s1 f at_, sane s1 /\ known s1 p at_ f /\ incl (edges s) (edges s1) /\
       match f with
       | Data => Loaded s1
       | Source wanted =>
           match cyclic_node (edges s1 ++ map (pair p) wanted) with
           | Some c => Cyclic c
           | None => load_all (load fs baked k (match find_source_dir fs lib p with Some d => lib ++ [d] | None => lib end))
                       (Loader (found s1) (edges s1 ++ map (pair p) wanted)) wanted
           end
       end = Starved).
    { destruct (lookup_path p (found s)) as [[at_ f]|] eqn:Lk.
      - exists s, f, at_. split; [exact S | split; [exact Lk | split; [apply incl_refl | exact H]]].
      - destruct (read_fs fs baked lib p) as [[at_ f]|] eqn:R; [|discriminate].
        exists (Loader ((p, (at_, f)) :: found s) (edges s)), f, at_.
        split; [|split; [|split; [apply incl_refl | exact H]]].
        + destruct S as [S1 S2 S3]. constructor.
          * intros q a g K. unfold known in K. simpl in K. destruct (path_eqb q p) eqn:E; [|apply S1, K].
            apply path_eqb_eq in E. injection K as <- <-. subst. eapply read_found, R.
          * exact S2.
          * intros a b I_. destruct (S3 _ _ I_) as (a' & w & K & J). exists a', w. split; [|exact J].
            unfold known in *. simpl. destruct (path_eqb a p) eqn:E; [|exact K].
            apply path_eqb_eq in E. congruence.
        + unfold known. simpl. rewrite path_eqb_refl. reflexivity. }
    clear H. destruct ST as (s1 & f & at_ & S1 & K1 & X1 & H).
    destruct f as [wanted|]; [|discriminate].
    destruct (cyclic_node _) eqn:CY; [discriminate|].
    assert (RE : forall a b, In (a, b) (edges s1 ++ map (pair p) wanted) -> asks s1 a b).
    { intros a b I_. apply in_app_or in I_. destruct I_ as [I_ | I_]; [apply S1, I_|].
      apply in_map_iff in I_. destruct I_ as (w & E & W). injection E as <- <-.
      exists at_, wanted. split; [exact K1 | exact W]. }
    eapply (all_ends _ st p wanted); [| | | | | exact H].
    + intros; eapply load_achieves; eauto.
    + intros s' q S' Q C'. eapply IH with (st := p :: st); auto.
      * intros a [<- | A]; auto.
      * simpl. lia.
    + destruct S1 as [T1 T2 T3]. constructor; [exact T1 | apply cyclic_complete, CY | exact RE].
    + intros w W. split; [|apply in_or_app; right; apply in_map, W].
      eapply closed; [exact P|]. eapply real_may; [exact S1|]. exists at_, wanted. split; assumption.
    + eapply chain_mono; [|exact C]. simpl. apply incl_appl, X1.
Qed.

End Loading.
