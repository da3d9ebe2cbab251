From Coq Require Import NArith ZArith List Bool Lia ZifyN ZifyNat ZifyBool.
From Verif.Heap Require Import Lines LinesSpec LinesProofs Model Spec HeapProofs AllocProofs TraceProofs EvacProofs CollectProofs.
Import ListNotations.
Local Open Scope N_scope.
Ltac Zify.zify_post_hook ::= Z.div_mod_to_equations.
Local Arguments N.add _ _ : simpl never.
Local Arguments N.sub _ _ : simpl never.
Local Arguments block_new _ : simpl never.

(** Adding a live object in a large-object block. *)
Lemma space_add_large act uns rst lobs fr m (L : addr -> Prop) a o :
  space act uns rst lobs fr m L -> mget m a = None -> In (fst a) lobs -> HEADER <= snd a ->
  (forall b, L b -> fst b <> fst a) ->
  space act uns rst lobs fr ((a, o) :: m) (fun b => b = a \/ L b).
Proof.
  intros [U F S V A N D] G0 Il Ha Dj.
  assert (NL : ~ L a) by (intros La; destruct (V a La) as (p & G & _); congruence).
  assert (ME : mget ((a, o) :: m) a = Some o) by (rewrite mget_cons, addr_eqb_refl; auto).
  assert (MO : forall b, L b -> mget ((a, o) :: m) b = mget m b).
  { intros b Lb. rewrite mget_cons, addr_eqb_neq; auto. intros <-. contradiction. }
  assert (NB : forall k l, In k l -> base k = fst a -> (cnt (fst a) (map base l) = 0)%nat -> False).
  { intros k l K E Z. apply cnt_base in K. rewrite E in K. lia. }
  pose proof (U (fst a)) as Ua. apply cnt_In in Il.
  constructor; auto.
  - intros b [->|Lb].
    + exists o. auto.
    + destruct (V b Lb) as (p & G & I). exists p. rewrite MO by auto. auto.
  - intros j b p x J [->|Lb] G E B.
    + exfalso. eapply NB; eauto. lia.
    + rewrite MO in G by auto. eapply A; eauto.
  - intros j b p x J [->|Lb] G E B.
    + exfalso. eapply NB; eauto. lia.
    + rewrite MO in G by auto. eapply N; eauto.
  - intros b c p q x [->|Lb] [->|Lc] Ne Gb Gc E Bx Cx.
    + contradiction.
    + eapply Dj; eauto.
    + eapply Dj; eauto.
    + rewrite MO in Gb, Gc by auto. eapply (D b c p q x); eauto.
Qed.

Section Sim.
  Variables (dbg : bool) (choose : list bblock -> N -> option nat).

  Lemma alloc_spec h L bytes fs : wf h L -> let '(h', r) := alloc dbg choose h bytes fs in
    exists a, r = Some a /\ ~ L a /\ wf h' (fun b => b = a \/ L b) /\ agree L (mem h) (mem h') /\
      mark_state h' = mark_state h /\ mget (mem h') a = Some (mkObj (negb (mark_state h)) bytes None fs).
  Proof.
    intros W. unfold alloc. set (size := alloc_size_of (HEADER + bytes)).
    assert (Hs : HEADER + bytes <= size) by (unfold size, alloc_size_of; lia). clearbody size.
    pose proof (try_allocate_spec dbg choose L h size W) as T.
    destruct (try_allocate dbg choose h size) as [h1 r]. destruct T as (W1 & A1 & M1 & b & o & -> & P).
    set (a := (b, o + HEADER)). set (ob := mkObj (negb (mark_state h1)) bytes None fs).
    set (m := clobber (mem h1) b o (o + HEADER + bytes)).
    assert (Na : mget m a = None) by (apply mget_clobber_none; auto; cbn; unfold HEADER; lia).
    assert (AG : agree L (mem h1) m).
    { intros x Lx. destruct (sp_live _ _ _ _ _ _ _ (wf_space _ _ W1) x Lx) as (p & Gp & Hp & _). rewrite Gp.
      apply mget_clobber; auto. { unfold HEADER; lia. } intros Ex y By Q. destruct P as [P|P].
      - destruct P as (k & _ & Kb & Kc & Kd & P). apply (P x p y); auto. lia.
      - destruct P as (_ & _ & P). exact (P x Lx Ex). }
    assert (NL : ~ L a).
    { intros La. destruct (sp_live _ _ _ _ _ _ _ (wf_space _ _ W1) a La) as (p & Gp & _). rewrite <- AG in Gp by auto. congruence. }
    pose proof (space_agree _ _ _ _ _ _ _ _ (wf_space _ _ W1) AG) as S.
    exists a. split; auto. split; auto. split; [|split; [|split]].
    - destruct W1 as [S1 R1 T1 F1]. constructor; auto. cbn [mem set_mem lobs fresh unswept rest].
      change (actives (set_mem h1 ((a, ob) :: m))) with (actives h1).
      destruct P as [(k & Kh & Kb & Kc & Kd & P)|(P1 & P2 & P3)].
      + assert (exists act, (forall j, In j (actives h1) <-> In j (k :: act)) /\
                  forall x, cnt x (map base (actives h1)) = cnt x (map base (k :: act))) as (act & E1 & E2).
        { unfold actives. destruct Kh as [-> | ->]; cbn [olist app].
          - exists (olist (overflow h1) ++ recycled h1). split; [tauto|auto].
          - exists (olist (head h1) ++ recycled h1). split; [|intros x; cnts].
            intros j. rewrite in_app_iff. cbn. rewrite in_app_iff. tauto. }
        eapply space_ext with (act := k :: act) (uns := unswept h1) (rst := rest h1);
          [|intros j; apply E1|auto|intros x; rewrite E2; auto].
        apply space_add; auto.
        * eapply space_ext; eauto. { intros j. apply E1. }
        * cbn. unfold HEADER. lia.
        * cbn. lia.
        * cbn. unfold HEADER in *. lia.
        * intros x p y Lx Gx Ex By Bx. rewrite AG in Gx by auto. apply (P x p y); auto; [congruence|].
          unfold bytes_of, HEADER in By. cbn in By. unfold HEADER in *. lia.
      + subst o. apply space_add_large; auto. cbn. unfold HEADER. lia.
    - intros x Lx. cbn. rewrite mget_cons, addr_eqb_neq by (intros <-; contradiction).
      rewrite (AG x Lx). auto.
    - auto.
    - cbn. rewrite mget_cons, addr_eqb_refl. unfold ob. rewrite M1. auto.
  Qed.

  Definition vrel (phi : nat -> option addr) (v : val) (i : ival) : Prop :=
    match v, i with
    | VData n, IData k => n = k
    | VPtr a, IPtr j => phi j = Some a
    | _, _ => False
    end.
  Definition live (phi : nat -> option addr) (a : addr) : Prop := exists i, phi i = Some a.

  Record sim (phi : nat -> option addr) (s : machine) (t : imachine) : Prop := {
    si_wf : wf (fst s) (live phi);
    si_clean : clean (fst s) (live phi);
    si_inj : forall i j a, phi i = Some a -> phi j = Some a -> i = j;
    si_dom : forall i a, phi i = Some a -> (i < length (fst t))%nat;
    si_roots : Forall2 (vrel phi) (snd s) (snd t);
    si_fields : forall i a, phi i = Some a -> exists o, mget (mem (fst s)) a = Some o /\
      Forall2 (vrel phi) (o_fields o) (nth i (fst t) []) }.

  Lemma Forall2_nth {A B} (R : A -> B -> Prop) l k : Forall2 R l k -> forall i,
    match nth_error l i, nth_error k i with Some x, Some y => R x y | None, None => True | _, _ => False end.
  Proof. induction 1; intros [|i]; cbn; auto. apply IHForall2. Qed.
  Lemma Forall2_snoc {A B} (R : A -> B -> Prop) l k x y : Forall2 R l k -> R x y -> Forall2 R (l ++ [x]) (k ++ [y]).
  Proof. intros. apply Forall2_app; auto. Qed.
  Lemma Forall2_list_set {A B} (R : A -> B -> Prop) l k x y : Forall2 R l k -> R x y -> forall i,
    Forall2 R (list_set l i x) (list_set k i y).
  Proof. induction 1; intros Hxy [|i]; cbn; constructor; auto. Qed.
  Lemma Forall2_gather {A B} (R : A -> B -> Prop) l k : Forall2 R l k -> forall rs,
    match gather l rs, gather k rs with Some xs, Some ys => Forall2 R xs ys | None, None => True | _, _ => False end.
  Proof.
    intros F. induction rs as [|r rs IH]; cbn; [constructor|]. pose proof (Forall2_nth R l k F r) as N.
    destruct (nth_error l r), (nth_error k r); try contradiction; auto.
    destruct (gather l rs), (gather k rs); try contradiction; auto.
  Qed.
  Lemma Forall2_mono {A B} (R Q : A -> B -> Prop) l k : (forall x y, In x l -> R x y -> Q x y) -> Forall2 R l k -> Forall2 Q l k.
  Proof.
    intros H F. induction F; constructor.
    - apply H; auto. left; auto.
    - apply IHF. intros; apply H; auto. right; auto.
  Qed.
  Lemma Forall2_In_l {A B} (R : A -> B -> Prop) l k x : Forall2 R l k -> In x l -> exists y, In y k /\ R x y.
  Proof.
    induction 1; intros I; [contradiction|]. destruct I as [<-|I]; [exists y; split; auto; left; auto|].
    destruct (IHForall2 I) as (z & Z & Rz). exists z. split; auto. right; auto.
  Qed.

  Lemma sim_live_roots phi s t : sim phi s t -> forall a, In (VPtr a) (snd s) -> live phi a.
  Proof.
    intros S a I. destruct (Forall2_In_l _ _ _ _ (si_roots _ _ _ S) I) as ([n|j] & _ & R); [contradiction|]. exists j. auto.
  Qed.
  Lemma sim_closed phi s t : sim phi s t -> closed (mem (fst s)) (live phi).
  Proof.
    intros S a o b (i & Hi) G I. destruct (si_fields _ _ _ S i a Hi) as (o' & G' & F). assert (o' = o) by congruence. subst o'.
    destruct (Forall2_In_l _ _ _ _ F I) as ([n|j] & _ & R); [contradiction|]. exists j. auto.
  Qed.
  Lemma list_set_length {A} (l : list A) i x : length (list_set l i x) = length l.
  Proof. revert i; induction l; intros [|i]; cbn; auto. Qed.
  Lemma nth_list_set {A} (l : list A) i x d j : (i < length l)%nat -> nth j (list_set l i x) d = if Nat.eqb i j then x else nth j l d.
  Proof.
    revert i j; induction l as [|y l IH]; intros [|i] [|j] H; cbn in *; auto; try lia. apply IH. lia.
  Qed.

  Lemma sim_step phi s t op : sim phi s t ->
    exists s' ob, step dbg choose s op = Some (s', ob) /\ snd (istep t op) = ob /\ exists phi', sim phi' s' (fst (istep t op)).
  Proof.
    intros S. destruct s as [h roots], t as [ih iroots]. pose proof S as [W C I D R F]. cbn [fst snd] in *.
    destruct op as [n|bytes rs|r i|r i q|r|r|r q|cs pinned]; cbn [step istep].
    - eexists _, _. split; [reflexivity|]. split; auto. exists phi. constructor; auto. cbn. apply Forall2_snoc; auto. cbn. auto.
    - destruct (4294967295 <? bytes). { eexists _, _. split; [reflexivity|]. split; auto. exists phi. auto. }
      pose proof (Forall2_gather _ _ _ R rs) as G. destruct (gather roots rs) as [fs|], (gather iroots rs) as [ifs|]; try contradiction.
      2:{ eexists _, _. split; [reflexivity|]. split; auto. exists phi. auto. }
      pose proof (alloc_spec h (live phi) bytes fs W) as A. destruct (alloc dbg choose h bytes fs) as [h' r].
      destruct A as (a & -> & NL & W' & AG & MS & Ga). eexists _, _. split; [reflexivity|]. split; auto.
      set (phi' := fun i => if Nat.eqb i (length ih) then Some a else phi i).
      assert (Pn : phi (length ih) = None).
      { destruct (phi (length ih)) eqn:E; auto. apply D in E. lia. }
      assert (Pext : forall i x, phi i = Some x -> phi' i = Some x).
      { intros i x Hx. unfold phi'. destruct (Nat.eqb_spec i (length ih)); [subst; congruence|auto]. }
      assert (Vext : forall x y, vrel phi x y -> vrel phi' x y).
      { intros [n|x] [m|y]; cbn; auto. }
      assert (LE : forall x, live phi' x <-> x = a \/ live phi x).
      { intros x. split.
        - intros (i & Hi). unfold phi' in Hi. destruct (Nat.eqb i (length ih)); [left; congruence|right; exists i; auto].
        - intros [->|(i & Hi)]; [exists (length ih); unfold phi'; rewrite Nat.eqb_refl; auto|exists i; auto]. }
      exists phi'. constructor; cbn [fst snd].
      + destruct W' as [S1 S2 S3 S4]. constructor; auto. eapply space_mono; eauto. intros x; apply LE.
      + intros x o Lx Gx. apply LE in Lx. destruct Lx as [->|Lx].
        * rewrite Ga in Gx. injection Gx as <-. cbn. rewrite MS. auto.
        * rewrite AG in Gx by auto. rewrite MS. apply (C x o Lx Gx).
      + intros i j x Hi Hj. unfold phi' in *. destruct (Nat.eqb_spec i (length ih)), (Nat.eqb_spec j (length ih)); subst; auto.
        * exfalso. apply NL. exists j. congruence.
        * exfalso. apply NL. exists i. congruence.
        * eauto.
      + intros i x Hi. rewrite app_length. cbn. unfold phi' in Hi. destruct (Nat.eqb_spec i (length ih)); [lia|]. apply D in Hi. lia.
      + apply Forall2_snoc.
        * eapply Forall2_mono; [|exact R]. auto.
        * cbn. unfold phi'. rewrite Nat.eqb_refl. auto.
      + intros i x Hi. unfold phi' in Hi. destruct (Nat.eqb_spec i (length ih)) as [->|Ne].
        * injection Hi as <-. rewrite Ga. eexists. split; [reflexivity|]. cbn. rewrite app_nth2 by lia. rewrite Nat.sub_diag. cbn.
          eapply Forall2_mono; [|exact G]. auto.
        * destruct (F i x Hi) as (o & Go & Fo). exists o. rewrite AG by (exists i; auto). split; auto.
          rewrite app_nth1 by (apply D in Hi; auto). eapply Forall2_mono; [|exact Fo]. auto.
    - pose proof (Forall2_nth _ _ _ R r) as N. destruct (nth_error roots r) as [[n|a]|], (nth_error iroots r) as [[m|j]|]; cbn in N; try contradiction;
        try (eexists _, _; split; [reflexivity|]; split; auto; exists phi; auto; fail).
      destruct (F j a N) as (o & Go & Fo). rewrite Go. pose proof (Forall2_nth _ _ _ Fo i) as N2.
      destruct (nth_error (o_fields o) i) as [v|], (nth_error (nth j ih []) i) as [w|]; try contradiction;
        eexists _, _; (split; [reflexivity|]); (split; [auto|]); exists phi; auto.
      constructor; auto. cbn. apply Forall2_snoc; auto.
    - pose proof (Forall2_nth _ _ _ R r) as N. pose proof (Forall2_nth _ _ _ R q) as Nq.
      destruct (nth_error roots r) as [[n|a]|], (nth_error iroots r) as [[m|j]|]; cbn in N; try contradiction;
        try (eexists _, _; split; [reflexivity|]; split; auto; exists phi; auto; fail).
      destruct (nth_error roots q) as [v|], (nth_error iroots q) as [w|]; try contradiction;
        try (eexists _, _; split; [reflexivity|]; split; auto; exists phi; auto; fail).
      destruct (F j a N) as (o & Go & Fo). rewrite Go. eexists _, _. split; [reflexivity|]. split; auto. exists phi.
      set (o' := mkObj (o_mark o) (o_len o) (o_fwd o) (list_set (o_fields o) i v)).
      constructor; cbn [fst snd]; auto.
      + destruct W as [S1 S2 S3 S4]. constructor; auto. cbn [mem set_mem lobs fresh unswept rest].
        change (actives (set_mem h (mset (mem h) a o'))) with (actives h).
        eapply space_remark; eauto.
      + intros x p Lx Gx. cbn in Gx |- *. destruct (addr_dec a x) as [<-|Ne].
        * rewrite (mget_mset_eq _ _ _ _ Go) in Gx. injection Gx as <-. cbn. apply (C a o Lx Go).
        * rewrite mget_mset_ne in Gx by auto. apply (C x p Lx Gx).
      + intros x y Hx. rewrite list_set_length. eauto.
      + intros k x Hk. cbn. pose proof (D j a N) as Dj. rewrite nth_list_set by auto.
        destruct (addr_dec a x) as [<-|Ne].
        * assert (j = k) by eauto. subst k. rewrite Nat.eqb_refl. exists o'. split; [apply (mget_mset_eq _ _ _ _ Go)|].
          cbn. apply Forall2_list_set; auto.
        * destruct (Nat.eqb_spec j k) as [<-|Nk]; [congruence|]. rewrite mget_mset_ne by auto. auto.
    - eexists _, _. split; [reflexivity|]. split; auto. exists phi. constructor; auto. cbn. apply Forall2_list_set; auto. cbn. auto.
    - pose proof (Forall2_nth _ _ _ R r) as N. destruct (nth_error roots r) as [[n|a]|], (nth_error iroots r) as [[m|j]|]; cbn in N; try contradiction;
        subst; eexists _, _; (split; [reflexivity|]); (split; [auto|]); exists phi; auto.
    - pose proof (Forall2_nth _ _ _ R r) as N. pose proof (Forall2_nth _ _ _ R q) as Nq.
      destruct (nth_error roots r) as [[n|a]|], (nth_error iroots r) as [[m|j]|]; cbn in N; try contradiction;
        try (eexists _, _; split; [reflexivity|]; split; auto; exists phi; auto; fail).
      destruct (nth_error roots q) as [[n|b]|], (nth_error iroots q) as [[m|k]|]; cbn in Nq; try contradiction;
        try (eexists _, _; split; [reflexivity|]; split; auto; exists phi; auto; fail).
      eexists _, _. split; [reflexivity|]. split; [|exists phi; auto]. cbn. f_equal.
      destruct (Nat.eqb_spec j k) as [->|Ne].
      + assert (a = b) by congruence. subst b. symmetry. apply addr_eqb_refl.
      + symmetry. apply addr_eqb_neq. intros ->. apply Ne. eauto.
    - pose proof (sim_live_roots _ _ _ S) as RL. pose proof (sim_closed _ _ _ S) as CL. cbn [fst snd] in *.
      destruct (collect_spec dbg h (live phi) cs pinned W C CL roots RL) as (h' & visited & g & E & Rv & Gi & W' & C' & Fd & MS & _).
      rewrite E. eexists _, _. split; [reflexivity|]. split; auto.
      set (phi' := fun i => match phi i with Some a => if in_dec addr_dec a visited then Some (g a) else None | None => None end).
      assert (P1 : forall i c, phi' i = Some c <-> exists a, phi i = Some a /\ In a visited /\ c = g a).
      { intros i c. unfold phi'. destruct (phi i) as [a|].
        - destruct (in_dec addr_dec a visited) as [Ia|Ia].
          + split; [intros [= <-]; exists a; auto|]. intros (b & [= <-] & _ & ->). auto.
          + split; [discriminate|]. intros (b & [= <-] & Ib & _). contradiction.
        - split; [discriminate|]. intros (b & ? & _). discriminate. }
      assert (VL : forall a, In a visited -> live phi a).
      { intros a Ia. apply Rv in Ia. induction Ia as [a Ha|a b o Ha IHa Ga Hb]; auto. eapply CL; eauto. }
      assert (LE : forall c, live phi' c -> exists a, In a visited /\ c = g a).
      { intros c (i & Hi). apply P1 in Hi. destruct Hi as (a & _ & Ia & ->). exists a; auto. }
      assert (VR : forall v w, vrel phi v w -> (forall a, v = VPtr a -> In a visited) -> vrel phi' (mapv g v) w).
      { intros [n|a] [m|j]; cbn; auto. intros Hj Hv. apply P1. exists a. auto. }
      exists phi'. constructor; cbn [fst snd].
      + destruct W' as [S1 S2 S3 S4]. constructor; auto. eapply space_mono; eauto.
      + intros c o Lc Gc. apply (C' c o); auto.
      + intros i j c Hi Hj. apply P1 in Hi, Hj. destruct Hi as (a & Ha & Ia & ->). destruct Hj as (b & Hb & Ib & Eb).
        assert (a = b) by auto. subst b. eauto.
      + intros i c Hi. apply P1 in Hi. destruct Hi as (a & Ha & _). eauto.
      + assert (HR : forall a, In (VPtr a) roots -> In a visited) by (intros a Ha; apply Rv; apply reach_root; auto).
        clear - R VR HR. induction R; cbn; constructor.
        * apply VR; auto. intros a ->. apply HR; left; auto.
        * apply IHR. intros a Ha; apply HR; right; auto.
      + intros i c Hi. apply P1 in Hi. destruct Hi as (a & Ha & Ia & ->). destruct (F i a Ha) as (o & Go & Fo).
        destruct (Fd a o Ia Go) as (p & Gp & _ & Ep). exists p. split; auto. rewrite Ep.
        assert (HR : forall b, In (VPtr b) (o_fields o) -> In b visited).
        { intros b Hb. apply Rv. apply Rv in Ia. eapply reach_step; eauto. }
        clear - Fo VR HR. induction Fo; cbn; constructor.
        * apply VR; auto. intros b ->. apply HR; left; auto.
        * apply IHFo. intros b Hb; apply HR; right; auto.
  Qed.

  Lemma sim_init : sim (fun _ => None) (heap_new, []) ([], []).
  Proof.
    assert (NL : forall a, live (fun _ => None) a -> False) by (intros a (i & Hi); discriminate).
    constructor; cbn; try discriminate; auto.
    - constructor; auto.
      + constructor; cbn; try contradiction; try (intros; exfalso; eapply NL; eauto; fail); auto. intros; lia.
      + cbn. contradiction.
  Qed.

  Lemma run_sim : forall os phi s t, sim phi s t ->
    exists s' obs, run dbg choose s os = Some (s', obs) /\ snd (irun t os) = obs /\ exists phi', sim phi' s' (fst (irun t os)).
  Proof.
    induction os as [|o os IH]; intros phi s t S; cbn [run irun].
    - eexists _, _. split; [reflexivity|]. split; auto. exists phi; auto.
    - destruct (sim_step phi s t o S) as (s1 & ob & E1 & E2 & phi1 & S1). rewrite E1.
      destruct (istep t o) as [t1 ob1]. cbn in E2, S1. subst ob1.
      destruct (IH phi1 s1 t1 S1) as (s2 & obs & E3 & E4 & phi2 & S2). rewrite E3.
      destruct (irun t1 os) as [t2 obs2]. cbn in *. subst obs2. eexists _, _. split; [reflexivity|]. split; auto. exists phi2. auto.
  Qed.
End Sim.
