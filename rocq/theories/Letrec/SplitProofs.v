(** Proofs about splitting lets into components. *)
From Coq Require Import String List Bool Arith Lia Permutation.
From Verif.Scope Require Import Model Spec Proofs.
From Verif.Simplify Require Import Compress.
From Verif.Letrec Require Import Tarjan TarjanSpec TarjanProofs Model Spec Proofs FlattenProofs.
Import ListNotations.
Local Arguments Nat.eqb : simpl never.
Local Arguments Nat.leb : simpl never.
Local Arguments Nat.ltb : simpl never.

(** ** Names and places *)
Lemma last_position_some names : forall n j, last_position names n = Some j -> nth_error names j = Some n.
Proof.
  induction names as [|x xs IH]; intros n j H; [discriminate|]. cbn in H. destruct (last_position xs n) as [i|] eqn:E.
  - injection H as <-. cbn. auto.
  - destruct (String.eqb_spec x n) as [->|]; [|discriminate]. injection H as <-. reflexivity.
Qed.
Lemma last_position_in names n : In n names -> exists j, last_position names n = Some j.
Proof.
  induction names as [|x xs IH]; intros H; [destruct H|]. cbn. destruct (last_position xs n) as [i|] eqn:E; [eauto|].
  destruct H as [->|H]; [rewrite String.eqb_refl; eauto|]. destruct (IH H) as [j Hj]. congruence.
Qed.
Lemma NoDup_nth_error_eq {A} (l : list A) i j x : NoDup l -> nth_error l i = Some x -> nth_error l j = Some x -> i = j.
Proof.
  intros N Hi Hj. rewrite NoDup_nth_error in N. apply N; [|congruence]. apply nth_error_Some. congruence.
Qed.
Lemma last_position_nodup names n j : NoDup names -> nth_error names j = Some n -> last_position names n = Some j.
Proof.
  intros N H. destruct (last_position_in names n (nth_error_In _ _ H)) as [i Hi]. rewrite Hi. f_equal.
  eapply NoDup_nth_error_eq; eauto using last_position_some.
Qed.
Lemma place_nth p : forall i, In i p -> nth_error p (place p i) = Some i.
Proof. induction p as [|j p IH]; intros i H; [destruct H|]. cbn. destruct (Nat.eqb_spec j i) as [->|E]; auto. destruct H; [congruence|]. cbn. auto. Qed.
Lemma place_lt p i : In i p -> place p i < List.length p.
Proof. intros H. apply nth_error_Some. rewrite place_nth; auto. discriminate. Qed.

(** ** References *)
Lemma refs_let d bs body t j : In j (refs d (ELet bs body t)) <-> (exists b, In b bs /\ In j (refs (S d) (b_expr b))) \/ In j (refs (S d) body).
Proof. cbn [refs]. rewrite in_app_iff, in_flat. tauto. Qed.
Lemma refs_close_lt names e : forall d d', d' < d -> refs d' (close_expr_vars names d e) = refs d' e.
Proof.
  induction e as [[m|s b m]|bs body t IHbs IHb|i ps body IHb|k xs IHxs] using expr_ind'; intros d d' L; cbn.
  - destruct (position names m); cbn; auto. destruct (Nat.eqb_spec d d'); auto. lia.
  - destruct (Nat.leb_spec d s); cbn; auto. destruct (Nat.eqb_spec (s + 1) d'), (Nat.eqb_spec s d'); auto; lia.
  - rewrite IHb by lia. f_equal. rewrite !flat_map_concat_map, map_map. f_equal. apply map_ext_in. rewrite Forall_forall in IHbs.
    intros b Hb. apply (IHbs b Hb). lia.
  - apply IHb. lia.
  - rewrite !flat_map_concat_map, map_map. f_equal. apply map_ext_in. rewrite Forall_forall in IHxs. intros b Hb. apply (IHxs b Hb). lia.
Qed.
Lemma refs_open_lt names e : forall d d', d' < d -> refs d' (open_expr_vars names d e) = refs d' e.
Proof.
  induction e as [[m|s b m]|bs body t IHbs IHb|i ps body IHb|k xs IHxs] using expr_ind'; intros d d' L; cbn.
  - auto.
  - destruct (Nat.eqb_spec s d) as [E|E]; cbn.
    + destruct (Nat.eqb_spec s d'); auto. lia.
    + destruct (Nat.ltb_spec d s); cbn; auto. destruct (Nat.eqb_spec (s - 1) d'), (Nat.eqb_spec s d'); auto; lia.
  - rewrite IHb by lia. f_equal. rewrite !flat_map_concat_map, map_map. f_equal. apply map_ext_in. rewrite Forall_forall in IHbs.
    intros b Hb. apply (IHbs b Hb). lia.
  - apply IHb. lia.
  - rewrite !flat_map_concat_map, map_map. f_equal. apply map_ext_in. rewrite Forall_forall in IHxs. intros b Hb. apply (IHxs b Hb). lia.
Qed.
Lemma refs_close names n j e : position names n = Some j -> forall d, In n (free_vars e) -> In j (refs d (close_expr_vars names d e)).
Proof.
  intros P. induction e as [[m|s b m]|bs body t IHbs IHb|i ps body IHb|k xs IHxs] using expr_ind'; intros d H.
  - cbn in *. destruct H as [->|[]]. rewrite P. cbn. rewrite Nat.eqb_refl. left; auto.
  - destruct H.
  - apply fv_let in H. cbn [close_expr_vars]. apply refs_let. rewrite Forall_forall in IHbs. destruct H as [(b & Hb & K)|K]; [left|right; auto].
    exists (map_b (close_expr_vars names (S d)) b). split; [apply in_map, Hb|]. apply (IHbs b Hb), K.
  - cbn in *. auto.
  - cbn in *. apply in_flat in H. destruct H as (x & Hx & K). apply in_flat. rewrite Forall_forall in IHxs. exists (close_expr_vars names d x).
    split; [apply in_map, Hx|]. apply (IHxs x Hx), K.
Qed.
Lemma fv_open_refs names n e : forall d, named_at names d e -> In n (free_vars (open_expr_vars names d e)) ->
  In n (free_vars e) \/ exists j, nth_error names j = Some n /\ In j (refs d e).
Proof.
  unfold named_at. induction e as [[m|s b m]|bs body t IHbs IHb|i ps body IHb|k xs IHxs] using expr_ind'; intros d; cbn.
  - tauto.
  - intros H. destruct (Nat.eqb_spec s d) as [E|E].
    + destruct (H E) as (x & Ex & ->). rewrite Ex. cbn. intros [<-|[]]. right. exists b. auto.
    + destruct (d <? s); cbn; tauto.
  - rewrite every_ref_bs. intros [H1 H2]. rewrite !in_app_iff, !in_flat. rewrite Forall_forall in *. intros [(b & Hb & K)|K].
    + apply in_map_iff in Hb. destruct Hb as (c & <- & Hc). cbn in K. apply (IHbs c Hc _ (H1 c Hc)) in K. destruct K as [K|(j & K1 & K2)]; [left; left; eauto|].
      right. exists j. split; auto. rewrite in_app_iff, in_flat. left. eauto.
    + apply (IHb _ H2) in K. destruct K as [K|(j & K1 & K2)]; [tauto|]. right. exists j. rewrite in_app_iff. auto.
  - apply IHb.
  - rewrite every_ref_xs. intros H. rewrite !in_flat. rewrite Forall_forall in *. intros (x & Hx & K).
    apply in_map_iff in Hx. destruct Hx as (c & <- & Hc). apply (IHxs c Hc _ (H c Hc)) in K. destruct K as [K|(j & K1 & K2)]; [left; eauto|].
    right. exists j. rewrite in_flat. eauto.
Qed.

(** ** Minimality is unaffected by opening and closing *)
Lemma map_refs (f : expr -> expr) (bs : list (binding expr)) : (forall b, In b bs -> refs 0 (f (b_expr b)) = refs 0 (b_expr b)) ->
  map (fun b => refs 0 (b_expr b)) (map (map_b f) bs) = map (fun b => refs 0 (b_expr b)) bs.
Proof. intros H. rewrite map_map. apply map_ext_in. intros b Hb. cbn. auto. Qed.
Lemma minimal_close names e : forall d, minimal_lets e -> minimal_lets (close_expr_vars names d e).
Proof.
  unfold minimal_lets. induction e as [[m|s b m]|bs body t IHbs IHb|i ps body IHb|k xs IHxs] using expr_ind'; intros d.
  - cbn. destruct (position names m); cbn; tauto.
  - cbn. destruct (d <=? s); cbn; tauto.
  - cbn [close_expr_vars]. rewrite !every_let_let. intros (H1 & H2 & H3). rewrite Forall_forall in IHbs. split; [|split; auto].
    + intros E. rewrite map_length, map_refs; auto. intros b _. apply refs_close_lt. lia.
    + intros b Hb. apply in_map_iff in Hb. destruct Hb as (c & <- & Hc). apply (IHbs c Hc), H2, Hc.
  - apply IHb.
  - cbn [close_expr_vars every_let]. rewrite !every_let_xs. rewrite Forall_forall in IHxs. intros H x Hx.
    apply in_map_iff in Hx. destruct Hx as (c & <- & Hc). apply (IHxs c Hc), H, Hc.
Qed.
Lemma minimal_open names e : forall d, minimal_lets e -> minimal_lets (open_expr_vars names d e).
Proof.
  unfold minimal_lets. induction e as [[m|s b m]|bs body t IHbs IHb|i ps body IHb|k xs IHxs] using expr_ind'; intros d.
  - cbn. tauto.
  - cbn. destruct (s =? d); cbn; try tauto. destruct (d <? s); cbn; tauto.
  - cbn [open_expr_vars]. rewrite !every_let_let. intros (H1 & H2 & H3). rewrite Forall_forall in IHbs. split; [|split; auto].
    + intros E. rewrite map_length, map_refs; auto. intros b _. apply refs_open_lt. lia.
    + intros b Hb. apply in_map_iff in Hb. destruct Hb as (c & <- & Hc). apply (IHbs c Hc), H2, Hc.
  - apply IHb.
  - cbn [open_expr_vars every_let]. rewrite !every_let_xs. rewrite Forall_forall in IHxs. intros H x Hx.
    apply in_map_iff in Hx. destruct Hx as (c & <- & Hc). apply (IHxs c Hc), H, Hc.
Qed.

(** ** Chains and names of lets under opening and closing *)
Lemma let_names_close names e : forall d, let_names (close_expr_vars names d e) = let_names e.
Proof.
  induction e as [[m|s b m]|bs body t IHbs IHb|i ps body IHb|k xs IHxs] using expr_ind'; intros d; cbn; auto.
  - destruct (position names m); auto.
  - destruct (d <=? s); auto.
  - rewrite IHb, map_names. do 2 f_equal. rewrite !flat_map_concat_map, map_map. f_equal. apply map_ext_forall. revert IHbs. apply Forall_impl. intros b Hb. apply Hb.
  - rewrite !flat_map_concat_map, map_map. f_equal. apply map_ext_forall. revert IHxs. apply Forall_impl. intros b Hb. apply Hb.
Qed.
Lemma let_names_open names e : forall d, let_names (open_expr_vars names d e) = let_names e.
Proof.
  induction e as [[m|s b m]|bs body t IHbs IHb|i ps body IHb|k xs IHxs] using expr_ind'; intros d; cbn; auto.
  - destruct (s =? d); auto. destruct (d <? s); auto.
  - rewrite IHb, map_names. do 2 f_equal. rewrite !flat_map_concat_map, map_map. f_equal. apply map_ext_forall. revert IHbs. apply Forall_impl. intros b Hb. apply Hb.
  - rewrite !flat_map_concat_map, map_map. f_equal. apply map_ext_forall. revert IHxs. apply Forall_impl. intros b Hb. apply Hb.
Qed.
Lemma shadowing_close names e : forall d, no_shadowing_chains e -> no_shadowing_chains (close_expr_vars names d e).
Proof.
  unfold no_shadowing_chains. induction e as [[m|s b m]|bs body t IHbs IHb|i ps body IHb|k xs IHxs] using expr_ind'; intros d.
  - cbn. destruct (position names m); cbn; tauto.
  - cbn. destruct (d <=? s); cbn; tauto.
  - cbn [close_expr_vars]. rewrite !every_let_let. intros (H1 & H2 & H3). rewrite Forall_forall in IHbs. split; [|split; auto].
    + intros E. cbn [chain] in *. rewrite chain_close, map_map. cbn. auto.
    + intros b Hb. apply in_map_iff in Hb. destruct Hb as (c & <- & Hc). apply (IHbs c Hc), H2, Hc.
  - apply IHb.
  - cbn [close_expr_vars every_let]. rewrite !every_let_xs. rewrite Forall_forall in IHxs. intros H x Hx.
    apply in_map_iff in Hx. destruct Hx as (c & <- & Hc). apply (IHxs c Hc), H, Hc.
Qed.
Lemma shadowing_open names e : forall d, no_shadowing_chains e -> no_shadowing_chains (open_expr_vars names d e).
Proof.
  unfold no_shadowing_chains. induction e as [[m|s b m]|bs body t IHbs IHb|i ps body IHb|k xs IHxs] using expr_ind'; intros d.
  - cbn. tauto.
  - cbn. destruct (s =? d); cbn; try tauto. destruct (d <? s); cbn; tauto.
  - cbn [open_expr_vars]. rewrite !every_let_let. intros (H1 & H2 & H3). rewrite Forall_forall in IHbs. split; [|split; auto].
    + intros E. cbn [chain] in *. rewrite chain_open, map_map. cbn. auto.
    + intros b Hb. apply in_map_iff in Hb. destruct Hb as (c & <- & Hc). apply (IHbs c Hc), H2, Hc.
  - apply IHb.
  - cbn [open_expr_vars every_let]. rewrite !every_let_xs. rewrite Forall_forall in IHxs. intros H x Hx.
    apply in_map_iff in Hx. destruct Hx as (c & <- & Hc). apply (IHxs c Hc), H, Hc.
Qed.
Lemma chain_nest gs : forall e, map fst (chain (nest gs e)) = names_of (concat gs) ++ map fst (chain e).
Proof.
  induction gs as [|g gs IH]; intros e; cbn [nest fold_right concat]; auto. unfold close_with_demand at 1. cbn [chain].
  rewrite chain_close, map_app, map_map, map_map. cbn. unfold names_of in *. rewrite map_app, <- app_assoc. f_equal. apply IH.
Qed.

Section Split.
  Variable order : list string -> list string.
  Hypothesis Ord : forall l x, In x (order l) <-> In x l.

  (** ** One scope *)
  Section Scope.
    Variable bs : list (binding expr).
    Variable body : expr.
    Variable scopes : list (list string).
    Notation names := (map b_name bs).
    Notation n := (List.length bs).
    Hypothesis N : NoDup names.
    Hypothesis V : verify_in scopes (ELet bs body OtherLet) = true.
    Hypothesis F : forall x, In x names -> ~ In x (free_vars (ELet bs body OtherLet)).
    Definition oe (b : binding expr) : expr := open_expr_vars names 0 (b_expr b).
    Definition ob : list (string * expr) := map (fun b => (b_name b, oe b)) bs.
    Definition od : expr := open_expr_vars names 0 body.
    Notation deps := (scope_deps order ob).

    Lemma deps_length : List.length deps = n.
    Proof. unfold scope_deps, ob. rewrite !map_length. auto. Qed.
    Lemma ob_names : map fst ob = names.
    Proof. unfold ob. rewrite map_map. auto. Qed.
    Lemma nth_ob i : nth_error ob i = option_map (fun b => (b_name b, oe b)) (nth_error bs i).
    Proof. apply nth_error_map. Qed.
    Lemma edge_iff i j : edge deps i j <-> exists b x, nth_error bs i = Some b /\ In x (free_vars (oe b)) /\ nth_error names j = Some x.
    Proof.
      unfold edge, scope_deps. split.
      - intros (ws & E & Hj). rewrite nth_error_map, nth_ob in E. destruct (nth_error bs i) as [b|] eqn:Eb; [|discriminate].
        injection E as <-. cbn [snd] in Hj. apply in_flat in Hj. destruct Hj as (x & Hx & K). rewrite ob_names in K.
        destruct (last_position names x) as [j'|] eqn:El; [|destruct K]. destruct K as [->|[]]. apply (proj1 (Ord _ _)) in Hx. exists b, x. split; [reflexivity|]. split; [exact Hx|]. apply last_position_some, El.
      - intros (b & x & E & Hx & K). rewrite nth_error_map, nth_ob, E. eexists. split; [reflexivity|]. apply in_flat. cbn [snd].
        exists x. split; [apply (proj2 (Ord _ _)), Hx|]. rewrite ob_names, (last_position_nodup _ _ _ N K). left; auto.
    Qed.
    Lemma deps_in_range : in_range deps.
    Proof. intros i j H. apply edge_iff in H. destruct H as (b & x & _ & _ & K). rewrite deps_length, <- (map_length b_name bs). apply nth_error_Some. congruence. Qed.
    Lemma verified b : In b bs -> verify_in (names :: scopes) (b_expr b) = true.
    Proof. apply (proj1 (verify_let _ _ _ _) V). Qed.
    Lemma verified_body : verify_in (names :: scopes) body = true.
    Proof. apply (proj1 (verify_let _ _ _ _) V). Qed.
    Lemma not_free_b b x : In b bs -> In x names -> ~ In x (free_vars (b_expr b)).
    Proof. intros Hb Hx K. apply (F x Hx), fv_let. eauto. Qed.

    Definition dflt : binding expr := mkBinding EmptyString (EVar (Free EmptyString)) default_demand.
    Definition pick (i : nat) : binding expr := let b := nth i bs dflt in mkBinding (b_name b) (oe b) default_demand.
    Lemma pick_nth i b : nth_error bs i = Some b -> pick i = mkBinding (b_name b) (oe b) default_demand.
    Proof. intros E. unfold pick. rewrite (nth_error_nth _ _ _ E). auto. Qed.
    Lemma in_range_nth i : i < n -> exists b, nth_error bs i = Some b /\ In b bs.
    Proof. intros L. destruct (nth_error bs i) as [b|] eqn:E; [eauto using nth_error_In|]. apply nth_error_None in E. lia. Qed.
    Lemma sequence_pick c : (forall i, In i c -> i < n) -> exists g, sequence (map (nth_error ob) c) = Some g /\
      map (fun nv => mkBinding (fst nv) (snd nv) default_demand) g = map pick c.
    Proof.
      induction c as [|i c IH]; intros H; cbn; [exists []; auto|]. destruct (in_range_nth i (H i (or_introl eq_refl))) as (b & E & _).
      destruct (IH (fun j Hj => H j (or_intror Hj))) as (g & -> & Eg). rewrite nth_ob, E. cbn. eexists. split; [reflexivity|]. cbn. rewrite Eg, (pick_nth i b E). auto.
    Qed.
    Lemma close_pairs g r : (let '(bs', b') := close_let_scope g r in ELet bs' b' OtherLet) =
      close_with_demand (map (fun nv => mkBinding (fst nv) (snd nv) default_demand) g) r.
    Proof. unfold close_let_scope, close_with_demand. rewrite !map_map. cbn. reflexivity. Qed.
    Lemma wrap_nest cs : (forall c i, In c cs -> In i c -> i < n) -> forall r,
      fold_right (wrap_component ob) (Done r) cs = Done (nest (map (map pick) cs) r).
    Proof.
      intros H r. induction cs as [|c cs IH]; cbn [fold_right map nest]; auto.
      rewrite IH by (intros c' i Hc; apply H; right; auto). unfold wrap_component at 1. cbn [obind].
      destruct (sequence_pick c (fun i => H c i (or_introl eq_refl))) as (g & -> & Eg).
      pose proof (close_pairs g (nest (map (map pick) cs) r)) as K. destruct (close_let_scope g _) as [bs' b']. rewrite K, Eg. reflexivity.
    Qed.

    Section Components.
      Variable cs : list (list nat).
      Hypothesis C1 : NoDup (concat cs).
      Hypothesis C2 : forall v, In v (concat cs) <-> v < List.length deps.
      Hypothesis C3 : forall c, In c cs -> c <> [] /\ forall x y, In x c -> (In y c <-> mutual deps x y).
      Hypothesis C4 : forall l c l', cs = l ++ c :: l' -> forall x y, In x c -> edge deps x y -> In y c \/ In y (concat l).
      Notation r := (nest (map (map pick) cs) od).

      Lemma component_range c i : In c cs -> In i c -> i < n.
      Proof. intros Hc Hi. rewrite <- deps_length. apply C2, in_concat. eauto. Qed.
      Lemma concat_pick l : concat (map (map pick) l) = map pick (concat l).
      Proof. symmetry. apply concat_map. Qed.
      Lemma pick_names l : names_of (map pick l) = map (fun i => b_name (nth i bs dflt)) l.
      Proof. unfold names_of. rewrite map_map. auto. Qed.
      Lemma name_nth i : i < n -> nth_error names i = Some (b_name (nth i bs dflt)).
      Proof. intros L. destruct (in_range_nth i L) as (b & E & _). rewrite (nth_error_nth _ _ _ E). rewrite nth_error_map, E. auto. Qed.
      Lemma layered_components : forall l l', cs = l ++ l' -> layered (map (map pick) l').
      Proof.
        intros l l'. revert l. induction l' as [|c l' IH]; intros l E; cbn [map layered]; auto.
        assert (D : forall i, In i (concat l') -> ~ In i c /\ ~ In i (concat l)).
        { intros i Hi. rewrite E, concat_app in C1. cbn in C1. split; intros K.
          - apply NoDup_app_r in C1. eapply NoDup_app_disjoint; eauto.
          - eapply NoDup_app_disjoint; eauto. apply in_or_app. auto. }
        assert (Rl : forall i, In i (concat l') -> i < n).
        { intros i Hi. rewrite <- deps_length. apply C2. rewrite E, concat_app. apply in_or_app. right. cbn. apply in_or_app. auto. }
        assert (Rc : forall i, In i c -> i < n).
        { intros i Hi. apply (component_range c); auto. rewrite E. apply in_or_app. right; left; auto. }
        split; [|split; [|apply (IH (l ++ [c])); rewrite <- app_assoc; auto]]; rewrite concat_pick, !pick_names.
        - intros b x Hb Hx K. apply in_map_iff in Hb. destruct Hb as (i & <- & Hi). apply in_map_iff in Hx. destruct Hx as (j & <- & Hj).
          destruct (in_range_nth i (Rc i Hi)) as (b & Eb & Hb). rewrite (pick_nth i b Eb) in K. cbn in K.
          assert (Ed : edge deps i j) by (apply edge_iff; exists b, (b_name (nth j bs dflt)); auto using name_nth).
          destruct (C4 l c l' E i j Hi Ed) as [H|H]; destruct (D j Hj); contradiction.
        - intros x Hx Hy. apply in_map_iff in Hx. destruct Hx as (i & <- & Hi). apply in_map_iff in Hy. destruct Hy as (j & Ej & Hj).
          assert (i = j). { apply (NoDup_nth_error_eq names i j (b_name (nth i bs dflt)) N); [apply name_nth; auto|]. rewrite <- Ej. apply name_nth; auto. }
          subst j. destruct (D i Hj); contradiction.
      Qed.

      Lemma perm : Permutation (concat cs) (seq 0 n).
      Proof.
        apply NoDup_Permutation; auto using seq_NoDup. intros i. rewrite C2, deps_length, in_seq. lia.
      Qed.
      Lemma position_pick p i : NoDup p -> (forall j, In j p -> j < n) -> In i p ->
        position (map (fun i => b_name (nth i bs dflt)) p) (b_name (nth i bs dflt)) = Some (place p i).
      Proof.
        induction p as [|j p IH]; intros Np R H; [destruct H|]. cbn. inversion Np; subst. destruct (Nat.eqb_spec j i) as [->|Ne].
        - rewrite String.eqb_refl. auto.
        - destruct H as [H|H]; [congruence|]. destruct (String.eqb_spec (b_name (nth j bs dflt)) (b_name (nth i bs dflt))) as [E|E].
          + exfalso. apply Ne. apply (NoDup_nth_error_eq names j i (b_name (nth i bs dflt)) N); [rewrite <- E; apply name_nth, R; left; auto|apply name_nth, R; right; auto].
          + rewrite IH; auto. intros k Hk. apply R. right; auto.
      Qed.

      Lemma components_den (I : interp) rho env : cs <> [] -> merges_lets I -> reorders_lets I -> den I rho env r = den I rho env (ELet bs body OtherLet).
      Proof.
        intros Ne M Ro. set (p := concat cs).
        assert (Np : NoDup p) by exact C1.
        assert (Rp : forall i, In i p <-> i < n) by (intros i; unfold p; rewrite C2, deps_length; tauto).
        assert (Lp : List.length p = n) by (unfold p; rewrite (Permutation_length perm), seq_length; auto).
        transitivity (den I rho env (close_with_demand (map pick p) od)).
        { unfold p. rewrite <- concat_pick. pose proof (layered_components [] cs eq_refl) as Ly. destruct cs as [|c l]; [congruence|].
          cbn [map] in *. apply nest_den; auto. }
        rewrite (Ro rho env bs body p perm). rewrite close_with_demand_den, pick_names.
        assert (En : reordered EmptyString p names = map (fun i => b_name (nth i bs dflt)) p).
        { unfold reordered. apply map_ext_in. intros i Hi. apply Rp in Hi. apply (nth_error_nth _ _ _ (name_nth i Hi)). }
        rewrite En.
        assert (Op : forall vs e, verify_in (names :: scopes) e = true -> (forall x, In x names -> ~ In x (free_vars e)) ->
          den I (bind_names (i_dangling I) (map (fun i => b_name (nth i bs dflt)) p) vs rho) env (open_expr_vars names 0 e) =
          den I rho (restored (i_dangling I) p vs :: env) e).
        { intros vs e Ve Fe. set (rho2 := bind_names _ _ _ _).
          assert (Hop := open_den I names e rho2 [] env). cbn [app List.length] in Hop. rewrite Hop.
          - replace (map rho2 names) with (restored (i_dangling I) p vs).
            + apply den_free. intros x Hx. unfold rho2. rewrite bind_names_position.
              destruct (position (map (fun i => b_name (nth i bs dflt)) p) x) as [k|] eqn:Ek; auto. exfalso.
              apply position_some, nth_error_In, in_map_iff in Ek. destruct Ek as (i & Ei & Hi). apply Rp in Hi. apply (Fe x); auto. rewrite <- Ei.
              eapply nth_error_In, name_nth, Hi.
            + unfold restored. rewrite Lp. apply nth_ext with (d := i_dangling I) (d' := rho2 EmptyString); [rewrite !map_length, seq_length; auto|].
              intros i Hi. rewrite map_length, seq_length in Hi. rewrite map_nth.
              rewrite (nth_indep _ _ (nth (place p (nth i (seq 0 n) 0)) vs (i_dangling I))) by (rewrite map_length, seq_length; auto).
              erewrite nth_error_nth; [|rewrite nth_error_map, (nth_error_nth' _ 0) by (rewrite seq_length; auto); reflexivity].
              rewrite seq_nth by auto. cbn [Nat.add].
              rewrite (nth_error_nth _ _ EmptyString (name_nth i Hi)).
              unfold rho2. rewrite bind_names_position, (position_pick p i); auto; [intros j Hj; apply Rp, Hj|apply Rp, Hi].
          - eapply every_ref_impl; [|exact (verify_named0 _ _ _ Ve)]. intros d [m|s b m]; auto. intros K Es. destruct (K Es) as (x & E & _).
            apply nth_error_Some. congruence. }
        apply i_let_ext; intros vs.
        - unfold reordered. rewrite map_map. apply map_ext_in. intros i Hi. apply Rp in Hi. destruct (in_range_nth i Hi) as (b & Eb & Hb).
          rewrite (pick_nth i b Eb). cbn [b_expr]. unfold oe. rewrite Op; [|apply verified, Hb|intros x Hx; apply not_free_b; auto].
          symmetry. apply nth_error_nth. rewrite nth_error_map, Eb. auto.
        - unfold od. apply Op; [apply verified_body|]. intros x Hx K. apply (F x Hx), fv_let. auto.
      Qed.

      Lemma oe_verify b : In b bs -> verify_in scopes (oe b) = true.
      Proof. intros Hb. apply (verify_open names _ [] scopes), verified, Hb. Qed.
      Lemma od_verify : verify_in scopes od = true.
      Proof. apply (verify_open names _ [] scopes), verified_body. Qed.
      Lemma nest_verify gs e : (forall g b, In g gs -> In b g -> verify_in scopes (b_expr b) = true) -> verify_in scopes e = true -> verify_in scopes (nest gs e) = true.
      Proof.
        intros H Ve. induction gs as [|g gs IH]; cbn; auto. apply verify_close_with_demand; [intros b; apply H; left; auto|].
        apply IH. intros g' b Hg. apply H. right; auto.
      Qed.
      Lemma pick_in c b : In c cs -> In b (map pick c) -> exists i b0, In i c /\ nth_error bs i = Some b0 /\ In b0 bs /\ b = mkBinding (b_name b0) (oe b0) default_demand.
      Proof.
        intros Hc Hb. apply in_map_iff in Hb. destruct Hb as (i & <- & Hi). destruct (in_range_nth i (component_range c i Hc Hi)) as (b0 & E & Hb0).
        exists i, b0. rewrite (pick_nth i b0 E). auto.
      Qed.
      Lemma components_verify : verify_in scopes r = true.
      Proof.
        apply nest_verify; [|apply od_verify]. intros g b Hg Hb. apply in_map_iff in Hg. destruct Hg as (c & <- & Hc).
        destruct (pick_in c b Hc Hb) as (i & b0 & _ & _ & H & ->). apply oe_verify, H.
      Qed.
      Lemma fv_nest_in x gs e : layered gs -> In x (free_vars (nest gs e)) ->
        ((exists g b, In g gs /\ In b g /\ In x (free_vars (b_expr b))) \/ In x (free_vars e)) /\ ~ In x (names_of (concat gs)).
      Proof.
        induction gs as [|g gs IH]; cbn [nest fold_right concat]; [cbn; auto|]. intros (L1 & L2 & L3) H. apply fv_close_with_demand in H. destruct H as [H1 H2].
        unfold names_of in *. rewrite map_app, in_app_iff. destruct H1 as [(b & Hb & K)|K].
        - split; [left; exists g, b; cbn; auto|]. intros [?|Hn]; [tauto|]. eapply L1; eauto.
        - apply (IH L3) in K. destruct K as [[(g' & b & Hg & Hb & K)|K] Nn]; (split; [|tauto]); [left; exists g', b; cbn; auto|auto].
      Qed.
      Lemma components_free x : In x (free_vars r) -> In x (free_vars (ELet bs body OtherLet)).
      Proof.
        intros H. apply (fv_nest_in x _ _ (layered_components [] cs eq_refl)) in H. destruct H as [H Nn].
        rewrite concat_pick, pick_names in Nn.
        assert (Nx : ~ In x names).
        { intros K. apply Nn. apply in_map_iff. apply In_nth_error in K. destruct K as (i & Ei).
          assert (Li : i < n) by (rewrite <- (map_length b_name bs); apply nth_error_Some; congruence).
          exists i. split; [pose proof (name_nth i Li); congruence|]. apply C2. rewrite deps_length. auto. }
        apply fv_let. destruct H as [(g & b & Hg & Hb & K)|K].
        - apply in_map_iff in Hg. destruct Hg as (c & <- & Hc). destruct (pick_in c b Hc Hb) as (i & b0 & _ & _ & Hb0 & ->). cbn in K.
          apply fv_open in K; [|apply (verify_named0 _ scopes), verified, Hb0]. destruct K; [left; eauto|contradiction].
        - apply fv_open in K; [|apply (verify_named0 _ scopes), verified_body]. tauto.
      Qed.

      (** Paths between vertices of a component stay inside it. *)
      Lemma path_inside c x y : In c cs -> reaches deps x y -> In x c -> In y c ->
        reaches (map (fun b => refs 0 (b_expr b)) (map (map_b (close_expr_vars (map b_name (map pick c)) 0)) (map pick c))) (place c x) (place c y).
      Proof.
        intros Hc P. induction P as [x|x y z Exy P IH]; intros Hx Hz; [constructor|].
        assert (Hy : In y c).
        { apply (proj2 (C3 c Hc) x y Hx). split; [apply reach_one, Exy|]. eapply reach_trans; [exact P|]. apply (proj2 (C3 c Hc) z x Hz), Hx. }
        apply reach_step with (y := place c y); auto.
        apply edge_iff in Exy. destruct Exy as (b & v & Eb & Hv & Ev).
        unfold edge. rewrite !map_map. exists (refs 0 (close_expr_vars (map b_name (map pick c)) 0 (b_expr (pick x)))). split.
        - rewrite nth_error_map, (place_nth c x Hx). cbn. rewrite !map_map. reflexivity.
        - rewrite (pick_nth x b Eb). cbn [b_expr]. apply refs_close with (n := v); auto.
          change (map b_name (map pick c)) with (names_of (map pick c)). rewrite pick_names.
          assert (Ly : y < n) by (apply (component_range c); auto). pose proof (name_nth y Ly) as En. replace v with (b_name (nth y bs dflt)) by congruence.
          apply position_pick; auto; [|intros j; apply component_range, Hc].
          clear -C1 Hc. apply in_split in Hc. destruct Hc as (l & l' & ->). rewrite concat_app in C1. cbn in C1. apply NoDup_app_r, NoDup_app_l in C1. auto.
      Qed.
      Lemma place_inv c i : In c cs -> i < List.length c -> exists x, In x c /\ place c x = i.
      Proof.
        intros Hc L. destruct (nth_error c i) as [x|] eqn:E; [|apply nth_error_None in E; lia]. exists x. assert (Hx := nth_error_In _ _ E). split; auto.
        assert (Nc : NoDup c). { clear -C1 Hc. apply in_split in Hc. destruct Hc as (l & l' & ->). rewrite concat_app in C1. cbn in C1. apply NoDup_app_r, NoDup_app_l in C1. auto. }
        eapply NoDup_nth_error_eq; [exact Nc|apply place_nth, Hx|exact E].
      Qed.
      Lemma component_mutual c : In c cs -> forall i j, i < List.length c -> j < List.length c ->
        mutual (map (fun b => refs 0 (b_expr b)) (map (map_b (close_expr_vars (map b_name (map pick c)) 0)) (map pick c))) i j.
      Proof.
        intros Hc i j Li Lj. destruct (place_inv c i Hc Li) as (x & Hx & <-), (place_inv c j Hc Lj) as (y & Hy & <-).
        destruct (proj1 (proj2 (C3 c Hc) x y Hx) Hy) as [P Q]. split; apply path_inside; auto.
      Qed.
      Lemma components_minimal : (forall b, In b bs -> minimal_lets (b_expr b)) -> minimal_lets body -> minimal_lets r.
      Proof.
        intros Mb Md.
        assert (K : forall l, (forall c, In c l -> In c cs) -> minimal_lets (nest (map (map pick) l) od)).
        { induction l as [|c l IH]; intros H; [apply minimal_open, Md|]. cbn [map nest fold_right]. unfold close_with_demand at 1.
          apply every_let_let. assert (Hc : In c cs) by (apply H; left; auto). split; [|split].
          - intros _. rewrite !map_length. apply component_mutual, Hc.
          - intros b Hb. apply in_map_iff in Hb. destruct Hb as (b1 & <- & Hb1). destruct (pick_in c b1 Hc Hb1) as (i & b0 & _ & _ & Hb0 & ->).
            apply (minimal_close _ _ 0), (minimal_open _ _ 0), Mb, Hb0.
          - apply (minimal_close _ _ 0), IH. intros c' Hc'. apply H. right; auto. }
        apply K. auto.
      Qed.
      (** A single component. *)
      Lemma single_mutual : List.length cs <= 1 -> forall i j, i < n -> j < n -> mutual (map (fun b => refs 0 (b_expr b)) bs) i j.
      Proof.
        intros L i j Li Lj.
        assert (Sub : forall x y, reaches deps x y -> reaches (map (fun b => refs 0 (b_expr b)) bs) x y).
        { intros x y P. induction P as [x|x y z Exy P IH]; [constructor|]. eapply reach_step; [|exact IH].
          apply edge_iff in Exy. destruct Exy as (b & v & Eb & Hv & Ev). exists (refs 0 (b_expr b)). rewrite nth_error_map, Eb. split; auto.
          assert (Hb := nth_error_In _ _ Eb).
          apply fv_open_refs in Hv; [|apply (verify_named0 _ scopes), verified, Hb]. destruct Hv as [Hv|(k & Ek & Hk)].
          - exfalso. eapply not_free_b; eauto. eapply nth_error_In; eauto.
          - replace y with k; auto. exact (NoDup_nth_error_eq _ _ _ _ N Ek Ev). }
        assert (In i (concat cs)) by (apply C2; rewrite deps_length; auto). assert (In j (concat cs)) by (apply C2; rewrite deps_length; auto).
        destruct cs as [|c [|? ?]]; [contradiction| |cbn in L; lia]. cbn in *. rewrite app_nil_r in *.
        destruct (proj1 (proj2 (C3 c (or_introl eq_refl)) i j H) H0) as [P Q]. split; auto.
      Qed.
      Lemma components_chain : Permutation (map fst (chain r)) (names ++ map fst (chain body)).
      Proof.
        rewrite chain_nest, concat_pick, pick_names. unfold od. rewrite chain_open. apply Permutation_app_tail.
        eapply Permutation_trans; [apply Permutation_map, perm|].
        replace names with (map (fun i => b_name (nth i bs dflt)) (seq 0 n)); auto.
        apply nth_ext with (d := b_name dflt) (d' := b_name dflt); [rewrite !map_length, seq_length; auto|].
        intros i Hi. rewrite map_length, seq_length in Hi. erewrite nth_error_nth; [|rewrite nth_error_map, (nth_error_nth' _ 0) by (rewrite seq_length; auto); reflexivity].
        rewrite seq_nth by auto. cbn [Nat.add]. rewrite map_nth. auto.
      Qed.
      Lemma components_shadowing : NoDup (names ++ map fst (chain body)) -> (forall b, In b bs -> no_shadowing_chains (b_expr b)) -> no_shadowing_chains body -> no_shadowing_chains r.
      Proof.
        intros Nn Mb Md. assert (Nr : NoDup (map fst (chain r))) by (eapply Permutation_NoDup; [apply Permutation_sym, components_chain|exact Nn]).
        rewrite chain_nest in Nr.
        assert (K : forall l, (forall c, In c l -> In c cs) -> NoDup (names_of (concat (map (map pick) l)) ++ map fst (chain od)) -> no_shadowing_chains (nest (map (map pick) l) od)).
        { induction l as [|c l IH]; intros H Nl; [apply shadowing_open, Md|].
          cbn [map] in *. pose proof (chain_nest (map pick c :: map (map pick) l) od) as Ec. cbn [nest fold_right] in *. unfold close_with_demand at 1. unfold close_with_demand at 1 in Ec.
          apply every_let_let. assert (Hc : In c cs) by (apply H; left; auto). split; [|split].
          - intros _. rewrite Ec. auto.
          - intros b Hb. apply in_map_iff in Hb. destruct Hb as (b1 & <- & Hb1). destruct (pick_in c b1 Hc Hb1) as (i & b0 & _ & _ & Hb0 & ->).
            apply (shadowing_close _ _ 0), (shadowing_open _ _ 0), Mb, Hb0.
          - apply (shadowing_close _ _ 0), IH; [intros c' Hc'; apply H; right; auto|].
            cbn [concat] in Nl. unfold names_of in Nl. rewrite map_app, <- app_assoc in Nl. apply NoDup_app_r in Nl. auto. }
        apply K; auto.
      Qed.
      Lemma components_let_names x : In x (let_names r) -> In x (let_names (ELet bs body OtherLet)).
      Proof.
        assert (K : forall l, (forall c, In c l -> In c cs) -> In x (let_names (nest (map (map pick) l) od)) -> In x (let_names (ELet bs body OtherLet))).
        { induction l as [|c l IH]; intros H Hx.
          - cbn in Hx. unfold od in Hx. rewrite let_names_open in Hx. apply let_names_let. auto.
          - cbn [map nest fold_right] in Hx. unfold close_with_demand at 1 in Hx. assert (Hc : In c cs) by (apply H; left; auto).
            apply let_names_let in Hx. destruct Hx as [[_ Hx]|[(b & Hb & Hx)|Hx]].
            + rewrite map_names in Hx. apply in_map_iff in Hx. destruct Hx as (b & <- & Hb). destruct (pick_in c b Hc Hb) as (i & b0 & _ & _ & Hb0 & ->).
              apply let_names_let. left. split; auto. apply in_map_iff. exists b0. auto.
            + apply in_map_iff in Hb. destruct Hb as (b1 & <- & Hb1). destruct (pick_in c b1 Hc Hb1) as (i & b0 & _ & _ & Hb0 & ->).
              cbn in Hx. rewrite let_names_close in Hx. unfold oe in Hx. rewrite let_names_open in Hx. apply let_names_let. right. left. eauto.
            + rewrite let_names_close in Hx. apply IH; auto. intros c' Hc'. apply H. right; auto. }
        apply K. auto.
      Qed.
    End Components.

    Record split_ok (e r : expr) : Prop := {
      s_verify : verify_in scopes r = true;
      s_free : forall x, In x (free_vars r) -> In x (free_vars e);
      s_minimal : minimal_lets r;
      s_chain : Permutation (map fst (chain r)) (map fst (chain e));
      s_shadowing : no_shadowing_chains e -> no_shadowing_chains r;
      s_let_names : forall x, In x (let_names r) -> In x (let_names e);
      s_den : forall I rho env, merges_lets I -> reorders_lets I -> den I rho env r = den I rho env e }.
    Lemma split_scope_ok : (forall b, In b bs -> minimal_lets (b_expr b)) -> minimal_lets body ->
      exists r, split_scope order bs body = Done r /\ split_ok (ELet bs body OtherLet) r.
    Proof.
      intros Mb Md. unfold split_scope, open_let_scope_full. fold od. change (map (fun b => (b_name b, open_expr_vars names 0 (b_expr b))) bs) with ob.
      destruct (tarjan_scc_ok deps deps_in_range) as (cs & -> & C1 & C2 & C3 & C4). cbn [obind].
      destruct (Nat.leb_spec (List.length cs) 1) as [L|L].
      - eexists. split; [reflexivity|]. split; auto. apply every_let_let. split; [|split; auto].
        intros _. apply (single_mutual cs); auto.
      - rewrite (wrap_nest cs) by (intros c i Hc Hi; rewrite <- deps_length; apply C2, in_concat; eauto).
        eexists. split; [reflexivity|]. split.
        + apply components_verify; auto.
        + apply components_free; auto.
        + apply components_minimal; auto.
        + cbn [chain]. rewrite map_app, map_map. cbn [fst]. apply components_chain; auto.
        + intros Ns. apply every_let_let in Ns. destruct Ns as (S1 & S2 & S3). specialize (S1 eq_refl). cbn [chain] in S1. rewrite map_app, map_map in S1. apply components_shadowing; auto.
        + apply components_let_names; auto.
        + intros I rho env M Ro. apply components_den; auto. destruct cs; [cbn in L; lia|discriminate].
    Qed.
  End Scope.

  (** ** Expressions *)
  Lemma collect_ok {A B} (f : A -> outcome B) (P : A -> B -> Prop) l : (forall x, In x l -> exists y, f x = Done y /\ P x y) ->
    exists ys, collect (map f l) = Done ys /\ Forall2 P l ys.
  Proof.
    induction l as [|x l IH]; intros H; cbn; [exists []; auto|]. destruct (H x (or_introl eq_refl)) as (y & -> & Py).
    destruct (IH (fun z Hz => H z (or_intror Hz))) as (ys & -> & Pys). cbn. exists (y :: ys). auto.
  Qed.
  Lemma Forall2_right {A B} (P : A -> B -> Prop) l l' y : Forall2 P l l' -> In y l' -> exists x, In x l /\ P x y.
  Proof. induction 1 as [|a b l l' H1 H2 IH]; intros K; [destruct K|]. destruct K as [<-|K]; [exists a; cbn; auto|]. destruct (IH K) as (x & Hx & Px). exists x; cbn; auto. Qed.
  Lemma Forall2_map {A B C} (P : A -> B -> Prop) (f : A -> C) (g : B -> C) l l' : (forall x y, In x l -> P x y -> f x = g y) -> Forall2 P l l' -> map g l' = map f l.
  Proof. intros H. induction 1; cbn; auto. f_equal; [symmetry; apply H; cbn; auto|]. apply IHForall2. intros; apply H; cbn; auto. Qed.

  Lemma split_letrecs_ok e : forall scopes, verify_in scopes e = true -> distinct_names e ->
    (forall n, In n (let_names e) -> ~ In n (free_vars e)) -> exists r, split_letrecs order e = Done r /\ split_ok scopes e r.
  Proof.
    unfold distinct_names. induction e as [v|bs body t IHbs IHb|i ps body IHb|k xs IHxs] using expr_ind'; intros scopes V N F.
    - exists (EVar v). split; auto. split; cbn; auto.
    - pose proof (proj1 (verify_let _ _ _ _) V) as [V1 V2]. apply every_let_let in N. destruct N as (N1 & N2 & N3).
      rewrite Forall_forall in IHbs. cbn [split_letrecs].
      destruct (collect_ok (fun b => obind (split_letrecs order (b_expr b)) (fun x => Done (mkBinding (b_name b) x (b_demand b))))
        (fun b c => b_name c = b_name b /\ split_ok (map b_name bs :: scopes) (b_expr b) (b_expr c)) bs) as (bs' & -> & P2).
      { intros b Hb. destruct (IHbs b Hb (map b_name bs :: scopes)) as (x & -> & Px); auto.
        - intros n Hn K. apply (F n); [apply let_names_let; right; left; eauto|apply fv_let; left; eauto].
        - cbn. eexists. split; [reflexivity|]. auto. }
      destruct (IHb (map b_name bs :: scopes)) as (body' & -> & Pd); auto.
      { intros n Hn K. apply (F n); [apply let_names_let; auto|apply fv_let; auto]. }
      cbn [obind].
      assert (En : map b_name bs' = map b_name bs).
      { apply (Forall2_map _ _ _ _ _ (fun b c _ (H : b_name c = b_name b /\ _) => eq_sym (proj1 H)) P2). }
      set (e' := ELet bs' body' t).
      assert (Vr : verify_in scopes e' = true).
      { apply verify_let. rewrite En. split; [|apply (s_verify _ _ _ Pd)]. intros b Hb. destruct (Forall2_right _ _ _ _ P2 Hb) as (c & Hc & _ & Pc). apply (s_verify _ _ _ Pc). }
      assert (Fr : forall n, In n (free_vars e') -> In n (free_vars (ELet bs body t))).
      { intros n Hn. apply fv_let in Hn. apply fv_let. destruct Hn as [(b & Hb & K)|K]; [|right; apply (s_free _ _ _ Pd), K].
        destruct (Forall2_right _ _ _ _ P2 Hb) as (c & Hc & _ & Pc). left. exists c. split; auto. apply (s_free _ _ _ Pc), K. }
      assert (Dr : forall I rho env, merges_lets I -> reorders_lets I -> den I rho env e' = den I rho env (ELet bs body t)).
      { intros I rho env M Ro. unfold e'. cbn [den]. rewrite En. apply i_let_ext; intros vs; [|apply (s_den _ _ _ Pd); auto].
        apply (Forall2_map _ _ _ _ _ (fun b c _ (H : b_name c = b_name b /\ split_ok _ _ _) => eq_sym (s_den _ _ _ (proj2 H) I rho (vs :: env) M Ro)) P2). }
      assert (Mb : forall b, In b bs' -> minimal_lets (b_expr b)).
      { intros b Hb. destruct (Forall2_right _ _ _ _ P2 Hb) as (c & Hc & _ & Pc). apply (s_minimal _ _ _ Pc). }
      assert (Md := s_minimal _ _ _ Pd).
      assert (Pc : Permutation (map fst (chain e')) (map fst (chain (ELet bs body t)))).
      { unfold e'. cbn [chain]. destruct t; auto. rewrite !map_app, !map_map. cbn [fst]. change (map (fun x : binding expr => b_name x) bs') with (map b_name bs'). rewrite En. apply Permutation_app_head, (s_chain _ _ _ Pd). }
      assert (Ps : no_shadowing_chains (ELet bs body t) -> no_shadowing_chains e').
      { intros H. apply every_let_let in H. destruct H as (S1 & S2 & S3). apply every_let_let. split; [|split; [|apply (s_shadowing _ _ _ Pd), S3]].
        - intros ->. eapply Permutation_NoDup; [apply Permutation_sym, Pc|]. apply S1. reflexivity.
        - intros b Hb. destruct (Forall2_right _ _ _ _ P2 Hb) as (c & Hc & _ & P3). apply (s_shadowing _ _ _ P3), S2, Hc. }
      assert (Pl : forall x, In x (let_names e') -> In x (let_names (ELet bs body t))).
      { intros x Hx. unfold e' in Hx. rewrite let_names_let in Hx |- *. rewrite En in Hx. destruct Hx as [Hx|[(b & Hb & Hx)|Hx]]; auto.
        - destruct (Forall2_right _ _ _ _ P2 Hb) as (c & Hc & _ & P3). right. left. exists c. split; auto. apply (s_let_names _ _ _ P3), Hx.
        - right. right. apply (s_let_names _ _ _ Pd), Hx. }
      destruct (negb (is_other t) || (List.length bs' <=? 1)) eqn:Eo.
      + exists e'. split; auto. split; auto. apply every_let_let. split; [|split; auto]. intros ->. cbn in Eo. apply Nat.leb_le in Eo.
        intros i j Li Lj. replace j with i by lia. split; constructor.
      + apply orb_false_iff in Eo. destruct Eo as [Eo _]. apply negb_false_iff in Eo. destruct t; try discriminate.
        destruct (split_scope_ok bs' body' scopes) as (r & -> & [R1 R2 R3 R4 R5 R6 R7]); auto.
        * rewrite En. auto.
        * rewrite En. intros x Hx K. apply (F x); [apply let_names_let; auto|]. apply Fr, K.
        * exists r. split; [reflexivity|]. split; auto; [eapply Permutation_trans; eauto|]. intros I rho env M Ro. rewrite R7; auto.
    - cbn [verify_in every_let let_names free_vars split_letrecs] in *. destruct (IHb (ps :: scopes) V N F) as (r & -> & [P1 P2 P3 P4 P5 P6 P7]).
      cbn. eexists. split; [reflexivity|]. split; cbn [verify_in free_vars den]; auto. intros I rho env M Ro. apply i_lam_ext. intros vs. auto.
    - cbn [verify_in every_let let_names free_vars split_letrecs] in *. rewrite every_let_xs in N. rewrite forallb_forall in V. rewrite Forall_forall in IHxs.
      destruct (collect_ok (split_letrecs order) (split_ok scopes) xs) as (xs' & -> & P2).
      { intros x Hx. apply IHxs; auto. intros n Hn K. apply (F n); apply in_flat; eauto. }
      cbn [obind]. eexists. split; [reflexivity|]. split; cbn [verify_in free_vars den].
      + apply forallb_forall. intros x Hx. destruct (Forall2_right _ _ _ _ P2 Hx) as (c & Hc & Pc). apply (s_verify _ _ _ Pc).
      + intros n Hn. apply in_flat in Hn. destruct Hn as (x & Hx & K). destruct (Forall2_right _ _ _ _ P2 Hx) as (c & Hc & Pc). apply in_flat. exists c. split; auto. apply (s_free _ _ _ Pc), K.
      + cbn. apply every_let_xs. intros x Hx. destruct (Forall2_right _ _ _ _ P2 Hx) as (c & Hc & Pc). apply (s_minimal _ _ _ Pc).
      + auto.
      + unfold no_shadowing_chains. cbn [every_let]. rewrite !every_let_xs. intros H x Hx. destruct (Forall2_right _ _ _ _ P2 Hx) as (c & Hc & Pc).
        apply (s_shadowing _ _ _ Pc). exact (H c Hc).
      + intros n Hn. cbn in *. apply in_flat in Hn. destruct Hn as (x & Hx & K). destruct (Forall2_right _ _ _ _ P2 Hx) as (c & Hc & Pc). apply in_flat. exists c. split; auto. apply (s_let_names _ _ _ Pc), K.
      + intros I rho env M Ro. f_equal. apply (Forall2_map _ _ _ _ _ (fun b c _ (H : split_ok _ _ _) => eq_sym (s_den _ _ _ H I rho env M Ro)) P2).
  Qed.
End Split.
