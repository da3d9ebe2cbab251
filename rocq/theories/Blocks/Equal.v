From Coq Require Import ZArith List Bool Lia.
From Verif Require Import Numbers.Model Numbers.Spec Numbers.Props Blocks.Model Blocks.Spec Blocks.Proofs.
Import ListNotations.

Local Arguments e_key : simpl never.
Local Arguments e_val : simpl never.

(** * EQ unfolded *)

Fixpoint list_eq {A} (f : A -> A -> bool) (xs ys : list A) : bool :=
  match xs, ys with
  | [], [] => true
  | x :: xs, y :: ys => f x y && list_eq f xs ys
  | _, _ => false
  end.

Definition entry_eq (e e' : entry) : bool :=
  N.eqb (e_key e) (e_key e') && val_eq (e_val e) (e_val e') &&
  match snd e, snd e' with Some more, Some more' => list_eq val_eq more more' | _, _ => true end.

Definition body_eq (x y : value) : bool :=
  match x, y with
  | Atom a, Atom b => atom_eq a b
  | Lst xs, Lst ys => list_eq val_eq xs ys
  | Blk xs, Blk ys => list_eq entry_eq xs ys
  | _, _ => false
  end.

Lemma val_eq_body x y : val_eq x y = body_eq (strip x) (strip y).
Proof.
  induction x as [a|xs _|es _ _|m x IH] using value_ind2; simpl.
  - destruct (strip y); reflexivity.
  - destruct (strip y) as [|ys| |]; try reflexivity.
    revert ys. induction xs as [|x xs IH]; intros [|y' ys]; simpl; try reflexivity; rewrite IH; reflexivity.
  - destruct (strip y) as [| |ys|]; try reflexivity.
    revert ys. induction es as [|[[k v] f] es IH]; intros [|[[k' v'] f'] ys]; simpl; try reflexivity.
    rewrite IH. unfold entry_eq. simpl. f_equal. f_equal.
    destruct f as [more|]; destruct f' as [more'|]; try reflexivity.
    revert more'. induction more as [|x more IHm]; intros [|y' more']; simpl; try reflexivity. rewrite IHm. reflexivity.
  - exact IH.
Qed.

Lemma list_eq_refl {A} (f : A -> A -> bool) xs : (forall x, In x xs -> f x x = true) -> list_eq f xs xs = true.
Proof.
  induction xs as [|x xs IH]; intros H; [reflexivity|]. simpl. rewrite (H x (or_introl eq_refl)). apply IH.
  intros y Hy. apply H. right. exact Hy.
Qed.
Lemma list_eq_sym {A} (f : A -> A -> bool) xs : forall ys, (forall x y, In x xs -> In y ys -> f x y = f y x) -> list_eq f xs ys = list_eq f ys xs.
Proof.
  induction xs as [|x xs IH]; intros [|y ys] H; try reflexivity. simpl. rewrite (H x y) by (left; reflexivity). f_equal. apply IH.
  intros a b Ha Hb. apply H; right; assumption.
Qed.
Lemma list_eq_trans {A} (f : A -> A -> bool) xs : forall ys zs,
  (forall x y z, In x xs -> In y ys -> In z zs -> f x y = true -> f y z = true -> f x z = true) ->
  list_eq f xs ys = true -> list_eq f ys zs = true -> list_eq f xs zs = true.
Proof.
  induction xs as [|x xs IH]; intros [|y ys] [|z zs] H H1 H2; try discriminate; [reflexivity|].
  simpl in *. apply andb_true_iff in H1, H2. destruct H1 as [H1 H1'], H2 as [H2 H2'].
  apply andb_true_iff. split.
  - apply (H x y z); auto.
  - apply (IH ys zs); auto. intros a b c Ha Hb Hc. apply H; right; assumption.
Qed.

Lemma str_eq_true x : forall y, str_eq x y = true <-> x = y.
Proof.
  induction x as [|a x IH]; intros [|b y]; simpl; split; try discriminate; try reflexivity.
  - intros H. apply andb_true_iff in H. destruct H as [H1 H2]. apply N.eqb_eq in H1. apply IH in H2. congruence.
  - intros [= -> ->]. rewrite N.eqb_refl. apply IH. reflexivity.
Qed.

Lemma atom_eq_refl a : atom_number proper a -> atom_eq a a = true.
Proof.
  destruct a as [|b|x|s|k]; simpl; intros H; [reflexivity|apply eqb_reflx|apply C47_reflexive; exact H|apply str_eq_true; reflexivity|apply N.eqb_refl].
Qed.
Lemma atom_eq_sym a b : atom_number proper a -> atom_number proper b -> atom_eq a b = atom_eq b a.
Proof.
  destruct a as [|a|x|s|k]; destruct b as [|b|y|t|k']; simpl; intros Ha Hb; try reflexivity.
  - destruct a, b; reflexivity.
  - apply C47_swap; assumption.
  - destruct (str_eq s t) eqn:E; symmetry.
    + apply str_eq_true. symmetry. apply str_eq_true. exact E.
    + destruct (str_eq t s) eqn:E'; [|reflexivity]. apply str_eq_true in E'. subst. rewrite (proj2 (str_eq_true s s) eq_refl) in E. discriminate.
  - apply N.eqb_sym.
Qed.

Lemma numbers_strip P v : numbers P v <-> numbers P (strip v).
Proof. induction v; simpl; try tauto. rewrite <- IHv2. split; [intros H; inversion H; assumption|apply numbers_met]. Qed.

Lemma numbers_entry P es e : numbers P (Blk es) -> In e es -> numbers P (e_val e) /\ (forall more x, snd e = Some more -> In x more -> numbers P x).
Proof.
  intros H Hin. inversion H as [| |? H1 H2|]; subst. destruct e as [[k v] f]. split; [apply (H1 k v f Hin)|].
  simpl. intros more x -> Hx. exact (H2 k v more x Hin Hx).
Qed.
Lemma numbers_of_atom P a : numbers P (Atom a) -> atom_number P a.
Proof. intros H. inversion H; assumption. Qed.
Lemma numbers_item P xs x : numbers P (Lst xs) -> In x xs -> numbers P x.
Proof. intros H. inversion H; subst. auto. Qed.

Lemma val_eq_refl v : all_proper v -> val_eq v v = true.
Proof.
  unfold all_proper. induction v as [a|xs IH|es IH IHm|m v IH] using value_ind2; intros Hp; rewrite val_eq_body; simpl.
  - inversion Hp; subst. apply atom_eq_refl. assumption.
  - apply list_eq_refl. intros x Hx. apply IH; [exact Hx|]. exact (numbers_item _ _ _ Hp Hx).
  - apply list_eq_refl. intros e He. destruct (numbers_entry _ _ _ Hp He) as [Hv Hm]. unfold entry_eq.
    rewrite N.eqb_refl, (IH e He Hv). simpl. destruct (snd e) as [more|] eqn:E; [|reflexivity].
    apply list_eq_refl. intros x Hx. apply (IHm e x He); [unfold more_of; rewrite E; exact Hx|exact (Hm more x eq_refl Hx)].
  - inversion Hp; subst. rewrite <- val_eq_body. apply IH. assumption.
Qed.

Lemma val_eq_sym x : forall y, all_proper x -> all_proper y -> val_eq x y = val_eq y x.
Proof.
  unfold all_proper. induction x as [a|xs IH|es IH IHm|m x IH] using value_ind2; intros y Hx Hy; rewrite !val_eq_body; simpl.
  - rewrite (numbers_strip _ y) in Hy. destruct (strip y); try reflexivity. simpl.
    inversion Hx; inversion Hy; subst. apply atom_eq_sym; assumption.
  - rewrite (numbers_strip _ y) in Hy. destruct (strip y) as [|ys| |]; try reflexivity. simpl.
    apply list_eq_sym. intros a b Ha Hb. apply IH; [exact Ha|exact (numbers_item _ _ _ Hx Ha)|exact (numbers_item _ _ _ Hy Hb)].
  - rewrite (numbers_strip _ y) in Hy. destruct (strip y) as [| |ys|]; try reflexivity. simpl.
    apply list_eq_sym. intros e e' He He'. destruct (numbers_entry _ _ _ Hx He) as [Hv Hm]. destruct (numbers_entry _ _ _ Hy He') as [Hv' Hm'].
    unfold entry_eq. rewrite N.eqb_sym, (IH e He (e_val e') Hv Hv'). f_equal.
    destruct (snd e) as [more|] eqn:E; destruct (snd e') as [more'|] eqn:E'; try reflexivity.
    apply list_eq_sym. intros a b Ha Hb. apply (IHm e a He); [unfold more_of; rewrite E; exact Ha|exact (Hm more a eq_refl Ha)|exact (Hm' more' b eq_refl Hb)].
  - inversion Hx; subst. rewrite <- !val_eq_body. rewrite IH by assumption. rewrite !val_eq_body. reflexivity.
Qed.

Lemma atom_eq_trans (P : number -> Prop) a b c : (forall x y, P x -> P y -> comparable x y) ->
  atom_number proper a -> atom_number proper b -> atom_number proper c ->
  atom_number P a -> atom_number P b -> atom_number P c -> atom_eq a b = true -> atom_eq b c = true -> atom_eq a c = true.
Proof.
  intros HP. destruct a as [|a|x|s|k]; destruct b as [|b|y|t|k']; try discriminate; destruct c as [|c|z|u|k'']; try discriminate; simpl;
    intros Ha Hb Hc Pa Pb Pc H1 H2; try reflexivity.
  - apply eqb_prop in H1, H2. subst. apply eqb_reflx.
  - destruct (C47_exact x y Ha Hb (HP _ _ Pa Pb)) as (_ & _ & _ & _ & E1). destruct (C47_exact y z Hb Hc (HP _ _ Pb Pc)) as (_ & _ & _ & _ & E2).
    destruct (C47_exact x z Ha Hc (HP _ _ Pa Pc)) as (_ & _ & _ & _ & E3). rewrite E1 in H1. rewrite E2 in H2. rewrite E3.
    apply Z.eqb_eq in H1, H2. apply Z.eqb_eq. congruence.
  - apply str_eq_true in H1, H2. apply str_eq_true. congruence.
  - apply N.eqb_eq in H1, H2. apply N.eqb_eq. congruence.
Qed.

Lemma short_strip v : short_entries v <-> short_entries (strip v).
Proof. induction v; simpl; try tauto. rewrite <- IHv2. split; [intros H; inversion H; assumption|apply short_met]. Qed.
Lemma short_entry es e : short_entries (Blk es) -> In e es -> short_entries (e_val e) /\ (snd e = None \/ snd e = Some []).
Proof. intros H Hin. inversion H as [| |? H1|]; subst. destruct e as [[k v] f]. exact (H1 k v f Hin). Qed.
Lemma short_item xs x : short_entries (Lst xs) -> In x xs -> short_entries x.
Proof. intros H. inversion H; subst. auto. Qed.

Lemma val_eq_trans (P : number -> Prop) : (forall x y, P x -> P y -> comparable x y) -> forall x y z,
  all_proper x -> all_proper y -> all_proper z -> numbers P x -> numbers P y -> numbers P z ->
  short_entries x -> short_entries y -> short_entries z -> val_eq x y = true -> val_eq y z = true -> val_eq x z = true.
Proof.
  intros HP. unfold all_proper. induction x as [a|xs IH|es IH IHm|m x IH] using value_ind2; intros y z Hx Hy Hz Px Py Pz Sx Sy Sz H1 H2.
  - rewrite val_eq_body in *. rewrite (numbers_strip _ y) in Hy. rewrite (numbers_strip _ z) in Hz. rewrite (numbers_strip P y) in Py. rewrite (numbers_strip P z) in Pz.
    simpl in *. destruct (strip y); try discriminate. simpl in H2. destruct (strip z); try discriminate.
    exact (atom_eq_trans P a a0 a1 HP (numbers_of_atom _ _ Hx) (numbers_of_atom _ _ Hy) (numbers_of_atom _ _ Hz)
             (numbers_of_atom _ _ Px) (numbers_of_atom _ _ Py) (numbers_of_atom _ _ Pz) H1 H2).
  - rewrite val_eq_body in *. rewrite (numbers_strip _ y) in Hy. rewrite (numbers_strip _ z) in Hz. rewrite (numbers_strip P y) in Py. rewrite (numbers_strip P z) in Pz.
    rewrite short_strip in Sy, Sz.
    simpl in *. destruct (strip y) as [|ys| |]; try discriminate. simpl in H2. destruct (strip z) as [|zs| |]; try discriminate.
    eapply list_eq_trans; [|exact H1|exact H2]. intros a b c Ha Hb Hc. apply IH; eauto using numbers_item, short_item.
  - rewrite val_eq_body in *. rewrite (numbers_strip _ y) in Hy. rewrite (numbers_strip _ z) in Hz. rewrite (numbers_strip P y) in Py. rewrite (numbers_strip P z) in Pz.
    rewrite short_strip in Sy, Sz.
    simpl in *. destruct (strip y) as [| |ys|]; try discriminate. simpl in H2. destruct (strip z) as [| |zs|]; try discriminate.
    eapply list_eq_trans; [|exact H1|exact H2]. intros a b c Ha Hb Hc. unfold entry_eq. rewrite !andb_true_iff. intros [[K1 V1] _] [[K2 V2] _].
    destruct (numbers_entry _ _ _ Hx Ha) as [Na _]. destruct (numbers_entry _ _ _ Hy Hb) as [Nb _]. destruct (numbers_entry _ _ _ Hz Hc) as [Nc _].
    destruct (numbers_entry _ _ _ Px Ha) as [Qa _]. destruct (numbers_entry _ _ _ Py Hb) as [Qb _]. destruct (numbers_entry _ _ _ Pz Hc) as [Qc _].
    destruct (short_entry _ _ Sx Ha) as [Ta Fa]. destruct (short_entry _ _ Sy Hb) as [Tb Fb]. destruct (short_entry _ _ Sz Hc) as [Tc Fc].
    split; [split|].
    + apply N.eqb_eq in K1, K2. apply N.eqb_eq. congruence.
    + apply (IH a Ha (e_val b)); assumption.
    + destruct Fa as [-> | ->]; [reflexivity|]. destruct Fc as [-> | ->]; reflexivity.
  - inversion Hx; inversion Px; inversion Sx; subst. rewrite val_eq_body in *. simpl in *. rewrite <- val_eq_body in *.
    apply (IH y z); assumption.
Qed.

(** * Equal blocks *)

Lemma equal_keys es : forall es', list_eq entry_eq es es' = true -> keys es = keys es'.
Proof.
  induction es as [|e es IH]; intros [|e' es'] H; try discriminate; [reflexivity|]. simpl in *.
  apply andb_true_iff in H. destruct H as [H1 H2]. unfold entry_eq in H1. rewrite !andb_true_iff in H1.
  destruct H1 as [[K _] _]. apply N.eqb_eq in K. f_equal; auto.
Qed.

Definition both (R : value -> value -> Prop) (a b : option value) : Prop :=
  match a, b with Some x, Some y => R x y | None, None => True | _, _ => False end.

Lemma equal_find k es : forall es', list_eq entry_eq es es' = true -> both (fun x y => val_eq x y = true) (find_first k es) (find_first k es').
Proof.
  induction es as [|e es IH]; intros [|e' es'] H; try discriminate; [exact I|]. simpl in *.
  apply andb_true_iff in H. destruct H as [H1 H2]. unfold entry_eq in H1. rewrite !andb_true_iff in H1.
  destruct H1 as [[K V] _]. apply N.eqb_eq in K. rewrite <- K. destruct (N.eqb (e_key e) k); [exact V|]. apply IH, H2.
Qed.

Lemma equal_insert e e' es : forall es', entry_eq e e' = true -> list_eq entry_eq es es' = true -> list_eq entry_eq (insert e es) (insert e' es') = true.
Proof.
  assert (K : forall x y, entry_eq x y = true -> e_key x = e_key y).
  { intros x y H. unfold entry_eq in H. rewrite !andb_true_iff in H. destruct H as [[K _] _]. apply N.eqb_eq. exact K. }
  induction es as [|x es IH]; intros [|x' es'] He H; try discriminate; simpl in *; [rewrite He; reflexivity|].
  apply andb_true_iff in H. destruct H as [H1 H2]. rewrite <- (K _ _ He), <- (K _ _ H1).
  destruct (N.eqb (e_key x) (e_key e)); simpl.
  - rewrite He. exact H2.
  - rewrite H1. apply IH; assumption.
Qed.

Lemma equal_inserts es : forall es' acc acc', list_eq entry_eq es es' = true -> list_eq entry_eq acc acc' = true ->
  list_eq entry_eq (inserts acc es) (inserts acc' es') = true.
Proof.
  induction es as [|e es IH]; intros [|e' es'] acc acc' H Ha; try discriminate; [exact Ha|].
  simpl in H. apply andb_true_iff in H. destruct H as [H1 H2]. apply (IH es' (insert e acc) (insert e' acc')); [exact H2|].
  apply equal_insert; assumption.
Qed.

Lemma list_eq_app {A} (f : A -> A -> bool) xs : forall ys xs' ys', list_eq f xs ys = true -> list_eq f xs' ys' = true -> list_eq f (xs ++ xs') (ys ++ ys') = true.
Proof.
  induction xs as [|x xs IH]; intros [|y ys] xs' ys' H H'; try discriminate; [exact H'|]. simpl in *.
  apply andb_true_iff in H. destruct H as [H1 H2]. rewrite H1. apply IH; assumption.
Qed.

Lemma equal_as_pair es : forall es', list_eq entry_eq es es' = true -> list_eq entry_eq (map as_pair es) (map as_pair es') = true.
Proof.
  induction es as [|e es IH]; intros [|e' es'] H; try discriminate; [reflexivity|]. simpl in *.
  apply andb_true_iff in H. destruct H as [H1 H2]. rewrite IH by exact H2. rewrite andb_true_r.
  unfold entry_eq in *. simpl. rewrite !andb_true_iff in H1. destruct H1 as [[K V] _]. apply andb_true_iff. split; [|reflexivity].
  apply andb_true_iff. split; [exact K|exact V].
Qed.

Lemma equal_combine f f' k v v' es : forall es', (forall x y, val_eq x y = true -> val_eq (f x) (f' y) = true) -> val_eq v v' = true ->
  list_eq entry_eq es es' = true -> list_eq entry_eq (combine f k v es) (combine f' k v' es') = true.
Proof.
  induction es as [|x es IH]; intros [|x' es'] Hf Hv H; try discriminate; simpl in *.
  - unfold entry_eq. simpl. change (e_key (k, v, None)) with k. change (e_key (k, v', None)) with k.
    change (e_val (k, v, None)) with v. change (e_val (k, v', None)) with v'. rewrite N.eqb_refl, Hv. reflexivity.
  - apply andb_true_iff in H. destruct H as [H1 H2]. pose proof H1 as H1'. unfold entry_eq in H1'. rewrite !andb_true_iff in H1'.
    destruct H1' as [[K V] _]. apply N.eqb_eq in K. rewrite <- K. destruct (N.eqb (e_key x) k); simpl.
    + rewrite H2, andb_true_r. unfold entry_eq. simpl. change (e_key (k, ?a, None)) with k.
      change (val_eq (e_val (k, f (e_val x), None)) (e_val (k, f' (e_val x'), None))) with (val_eq (f (e_val x)) (f' (e_val x'))).
      rewrite (Hf _ _ V). change (e_key (k, f (e_val x), None)) with k. change (e_key (k, f' (e_val x'), None)) with k. rewrite N.eqb_refl. reflexivity.
    + rewrite H1. apply IH; assumption.
Qed.

Lemma equal_combines F F' rs : forall rs' acc acc',
  (forall e e' x y, In e rs -> entry_eq e e' = true -> val_eq x y = true -> val_eq (F x (e_val e)) (F' y (e_val e')) = true) ->
  list_eq entry_eq rs rs' = true -> list_eq entry_eq acc acc' = true ->
  list_eq entry_eq (combines F acc rs) (combines F' acc' rs') = true.
Proof.
  induction rs as [|e rs IH]; intros [|e' rs'] acc acc' HF H Ha; try discriminate; [exact Ha|].
  simpl in H. apply andb_true_iff in H. destruct H as [H1 H2]. simpl. apply IH.
  - intros a b x y Hin. apply HF. right. exact Hin.
  - exact H2.
  - pose proof H1 as H1'. unfold entry_eq in H1'. rewrite !andb_true_iff in H1'. destruct H1' as [[K V] _]. apply N.eqb_eq in K. rewrite <- K.
    apply equal_combine; [|exact V|exact Ha]. intros x y Hxy. apply (HF e e'); [left; reflexivity|exact H1|exact Hxy].
Qed.

Lemma equal_blocks x y xs ys : strip x = Blk xs -> strip y = Blk ys -> val_eq x y = list_eq entry_eq xs ys.
Proof. intros Ex Ey. rewrite val_eq_body, Ex, Ey. reflexivity. Qed.

Lemma equal_shape x y xs : val_eq x y = true -> strip x = Blk xs -> exists ys, strip y = Blk ys /\ list_eq entry_eq xs ys = true.
Proof. intros H E. rewrite val_eq_body, E in H. destruct (strip y) eqn:Ey; try discriminate. eexists; split; [reflexivity|exact H]. Qed.
Lemma equal_shape' x y : val_eq x y = true -> (exists xs ys, strip x = Blk xs /\ strip y = Blk ys /\ list_eq entry_eq xs ys = true) \/
  ((forall xs, strip x <> Blk xs) /\ (forall ys, strip y <> Blk ys)).
Proof.
  rewrite val_eq_body. destruct (strip x); destruct (strip y); try discriminate; intros H; try (right; split; intros ? ?; discriminate).
  left. eexists _, _. eauto.
Qed.

Lemma equal_deep r : forall l l' r', val_eq l l' = true -> val_eq r r' = true -> val_eq (deep_merge l r) (deep_merge l' r') = true.
Proof.
  induction r as [a|xs _|rs IH _|m r IH] using value_ind2; intros l l' r' Hl Hr; rewrite val_eq_body, !strip_deep_merge.
  - destruct (equal_shape' _ _ Hr) as [(? & ? & H & _)|[_ H]]; [discriminate|]. rewrite val_eq_body in Hr. simpl in *.
    destruct (strip l); destruct (strip l'); destruct (strip r'); try exact Hr; exfalso; eapply H; reflexivity.
  - destruct (equal_shape' _ _ Hr) as [(? & ? & H & _)|[_ H]]; [discriminate|]. rewrite val_eq_body in Hr. simpl in *.
    destruct (strip l); destruct (strip l'); destruct (strip r'); try exact Hr; exfalso; eapply H; reflexivity.
  - destruct (equal_shape _ _ rs Hr eq_refl) as (rs' & Er & Hrs). rewrite Er. simpl (strip (Blk rs)).
    destruct (equal_shape' _ _ Hl) as [(ls & ls' & E & E' & Hls)|[H H']].
    + rewrite E, E'. simpl. unfold combined. apply equal_combines; [|exact Hrs|].
      * intros e e' x y Hin He Hxy. apply IH; [exact Hin|exact Hxy|]. unfold entry_eq in He. rewrite !andb_true_iff in He. apply He.
      * apply equal_inserts; [apply equal_as_pair; exact Hls|reflexivity].
    + destruct (strip l) eqn:E; destruct (strip l') eqn:E'; try exact Hrs; exfalso; first [eapply H; reflexivity | eapply H'; reflexivity].
  - simpl (strip (Met m r)). specialize (IH l l' r' Hl). rewrite (val_eq_body r), (val_eq_body (deep_merge l r)), !strip_deep_merge in IH. apply IH.
    rewrite val_eq_body in Hr. exact Hr.
Qed.

(** Data that is the same is equal. *)
Lemma alike_equal v w : alike v w -> all_proper v -> short_entries v -> short_entries w -> val_eq v w = true.
Proof.
  intros H. induction H using alike_mut with (P0 := fun es es' _ =>
    all_proper (Blk es) -> short_entries (Blk es) -> short_entries (Blk es') -> list_eq entry_eq es es' = true); intros Hp S1 S2.
  - apply val_eq_refl. exact Hp.
  - apply val_eq_refl. exact Hp.
  - rewrite val_eq_body. simpl. auto.
  - inversion Hp; inversion S1; subst. rewrite val_eq_body. simpl. rewrite <- val_eq_body. auto.
  - inversion S2; subst. rewrite val_eq_body. simpl. rewrite <- val_eq_body. auto.
  - reflexivity.
  - simpl. destruct (numbers_entry _ _ _ Hp (or_introl eq_refl)) as [Hv _].
    destruct (short_entry _ _ S1 (or_introl eq_refl)) as [Sv Fv]. destruct (short_entry _ _ S2 (or_introl eq_refl)) as [Sw Fw].
    apply andb_true_iff. split.
    + unfold entry_eq. change (e_key (k, v, f)) with k. change (e_key (k, w, f')) with k.
      change (val_eq (e_val (k, v, f)) (e_val (k, w, f'))) with (val_eq v w). rewrite N.eqb_refl, (IHalike Hv Sv Sw).
      destruct Fv as [-> | ->]; [reflexivity|]. destruct Fw as [-> | ->]; reflexivity.
    + inversion Hp as [| |? H1 H2|]; inversion S1 as [| |? T1|]; inversion S2 as [| |? T2|]; subst. apply IHalike0; constructor.
      * intros a b c Hin. apply (H1 a b c). right. exact Hin.
      * intros a b c x Hin. apply (H2 a b c x). right. exact Hin.
      * intros a b c Hin. apply (T1 a b c). right. exact Hin.
      * intros a b c Hin. apply (T2 a b c). right. exact Hin.
Qed.
