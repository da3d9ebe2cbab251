(** How the machine's shared, overwritten heap represents unshared call-by-name values. *)
From Coq Require Import List Bool Arith NArith Lia.
From Verif.Bytecode Require Import Model Spec.
From Verif.Machine Require Import Model Spec Name.
Import ListNotations.
Open Scope nat_scope.

Section Rel.
Context {native : Type}.
Notation ref := (ref native).
Notation syn := (syn native).
Notation form := (form native).
Notation value := (value (native := native)).
Notation env := (env (native := native)).
Notation mval := (mval (native := native)).
Notation heap := (heap (native := native)).
Variable prim : N -> list native -> prim_result (native := native).
Variable merge : N.
Variable globals : list form.
Notation variable := (variable globals).
Notation variables := (variables globals).
Notation argument := (argument globals).
Notation arguments := (arguments globals).
Notation reaches := (reaches prim merge globals).
Notation steps := (steps prim merge globals).
Notation pstep := (pstep prim merge globals).

(** For each array of the heap, the values its slots stand for. *)
Definition ghost := list (list value).

Definition gval (G : ghost) (a j : nat) : option value := nth_error (nth a G []) j.
Definition glen (G : ghost) (f : frame) : nat :=
  match snd f with [] => length (nth (fst f) G []) | remap => length remap end.
Fixpoint gcell (G : ghost) (e : menv) (i : nat) : option (nat * nat) :=
  match e with
  | [] => None
  | f :: e => if i <? glen G f then Some (fst f, physical_index f i) else gcell G e (i - glen G f)
  end.

(** The scope a frame stands for. *)
Definition shows_vals (G : ghost) (a : nat) (remap : list nat) (vs : list value) : Prop :=
  a < length G /\
  match remap with
  | [] => nth a G [] = vs
  | _ => Forall2 (fun j v => gval G a j = Some v) remap vs
  end.
Inductive den_env (G : ghost) : menv -> env -> Prop :=
| de_nil : den_env G [] []
| de_vals a remap e vs pe :
    shows_vals G a remap vs -> den_env G e pe -> den_env G ((a, remap) :: e) (Vals vs :: pe)
| de_rec a e fs pe :
    a < length G -> nth a G [] = map (closure (Rec fs :: pe)) fs -> den_env G e pe ->
    den_env G ((a, []) :: e) (Rec fs :: pe).

(** The value a machine value stands for, not looking at what has been evaluated. *)
Inductive den (G : ghost) : mval -> value -> Prop :=
| den_nat n : den G (MNat n) (VNat n)
| den_clo c a u e pe : den_env G e pe -> plain c -> den G (MClo c a u e) (VClo c a pe)
| den_pap s n a e pe f held :
    a < length G -> nth a G [] = f :: held -> length held = s -> 1 <= s -> 1 <= n ->
    takes f = s + n -> whnf f = true -> is_meta f = false -> den_env G e pe ->
    den G (MClo (pap_node s n) n false ((a, []) :: e)) (VPap f held).

(** A variable's slot lies in an array made before [b]. *)
Definition older (G : ghost) (e : menv) (r : ref) (b : nat) : Prop :=
  match r with
  | RL i => forall a j, gcell G e (N.to_nat i) = Some (a, j) -> a < b
  | RG _ => 0 < b
  | RV _ => True
  end.

(** What may be found where the value [p] is expected: a placeholder, [p] itself, what [p] evaluates
    to, or a variable standing for [p]. *)
Inductive rel (G : ghost) (b : nat) : mval -> value -> Prop :=
| rel_hole e p : rel G b (hole e) p
| rel_den m p : den G m p -> rel G b m p
| rel_memo m p q : den G m q -> whnf q = true -> (forall K, reaches (p, K) (q, K)) -> rel G b m p
| rel_alias r e pe p : den_env G e pe -> variable pe r = Some p -> older G e r b -> rel G b (clo (SAtom r) e) p.

Definition branches_plain (bs : list (N * syn)) (fb : option syn) : Prop :=
  All (fun b => plain (snd b)) bs /\ match fb with Some f => plain f | None => True end.

Inductive rk (G : ghost) : mcont -> pcont -> Prop :=
| rk_branch bs fb e pe : den_env G e pe -> branches_plain bs fb -> rk G (KBranch bs fb e) (PBranch bs fb pe)
| rk_apply ms ps : Forall2 (rel G (length G)) ms ps -> rk G (KApply ms) (PApply ps)
| rk_demeta h o e pe : den_env G e pe -> plain h -> plain o -> rk G (KDeMeta h o e) (PDeMeta h o pe)
| rk_seq b e pe : den_env G e pe -> plain b -> rk G (KSeq b e) (PSeq b pe)
| rk_left i r e pe : den_env G e pe -> rk G (KFusedLeft i r e) (PFusedLeft i r pe)
| rk_right i m q e pe :
    den_env G e pe -> den G m q -> whnf q = true -> is_meta q = false ->
    rk G (KFusedRight i m e) (PFusedRight i q pe).

(** [rs G b p seg K K']: the machine stack [K], below the part [seg] already matched, represents [K'],
    the current value being [p]; and each thunk awaiting an update evaluates to what is above it,
    in at least one step if [b] is [true]. *)
Inductive rs (G : ghost) : bool -> value -> list pcont -> list mcont -> list pcont -> Prop :=
| rs_nil b p seg : rs G b p seg [] []
| rs_cons b p seg k k' K K' : rk G k k' -> rs G b p (seg ++ [k']) K K' -> rs G b p seg (k :: K) (k' :: K')
| rs_update b p seg e pe i a j p0 K K' :
    den_env G e pe -> gcell G e i = Some (a, j) -> gval G a j = Some p0 ->
    (forall T, exists n, (b = true -> 0 < n) /\ steps n (p0, T) (p, seg ++ T)) ->
    rs G true p0 [] K K' -> rs G b p seg (KUpdate e i :: K) K'.

Definition hp (G : ghost) (h : heap) : Prop :=
  length h = length G /\ nth_error G 0 = Some (map (closure []) globals) /\
  forall a, a < length G -> Forall2 (rel G a) (nth a h []) (nth a G []).

(** * Extending the heap *)
Lemma Forall2_length {A B} (R : A -> B -> Prop) l l' : Forall2 R l l' -> length l = length l'.
Proof. induction 1; simpl; congruence. Qed.
Lemma Forall2_impl {A B} (R R' : A -> B -> Prop) l l' :
  (forall x y, R x y -> R' x y) -> Forall2 R l l' -> Forall2 R' l l'.
Proof. intros H. induction 1; constructor; auto. Qed.
Lemma nth_ext_app (G : ghost) x a : a < length G -> nth a (G ++ [x]) [] = nth a G [].
Proof. intros. apply app_nth1. assumption. Qed.
Lemma gval_ext G x a j v : gval G a j = Some v -> gval (G ++ [x]) a j = Some v.
Proof.
  unfold gval. intros H. destruct (Nat.lt_ge_cases a (length G)) as [Ha|Ha].
  - rewrite nth_ext_app by assumption. exact H.
  - rewrite (nth_overflow G) in H by assumption. destruct j; discriminate.
Qed.
Lemma den_env_ext G x e pe : den_env G e pe -> den_env (G ++ [x]) e pe.
Proof.
  induction 1 as [ | a rm e vs pe [Ha Hv] _ IH | a e fs pe Ha Hv _ IH].
  - constructor.
  - constructor; [| exact IH]. split; [rewrite app_length; simpl; lia |].
    destruct rm; [rewrite nth_ext_app; assumption |].
    eapply Forall2_impl; [| exact Hv]. intros; apply gval_ext; assumption.
  - apply de_rec; [rewrite app_length; simpl; lia | rewrite nth_ext_app; assumption | exact IH].
Qed.
Lemma gcell_ext G x e pe i : den_env G e pe -> gcell (G ++ [x]) e i = gcell G e i.
Proof.
  intros H. revert i. induction H as [ | a rm e vs pe [Ha Hv] _ IH | a e fs pe Ha Hv _ IH]; intros i.
  - reflexivity.
  - cbn [gcell]. assert (glen (G ++ [x]) (a, rm) = glen G (a, rm)) as ->.
    { unfold glen; cbn [fst snd]. destruct rm; [rewrite nth_ext_app by assumption; reflexivity | reflexivity]. }
    rewrite IH. reflexivity.
  - cbn [gcell]. assert (glen (G ++ [x]) (a, []) = glen G (a, [])) as ->.
    { unfold glen; cbn [fst snd]. rewrite nth_ext_app by assumption; reflexivity. }
    rewrite IH. reflexivity.
Qed.
Lemma den_ext G x m p : den G m p -> den (G ++ [x]) m p.
Proof.
  destruct 1.
  - constructor.
  - constructor; [apply den_env_ext; assumption | assumption].
  - eapply den_pap; try eassumption.
    + rewrite app_length; simpl; lia.
    + rewrite nth_ext_app; assumption.
    + apply den_env_ext; eassumption.
Qed.
Lemma older_le G e r b b' : older G e r b -> b <= b' -> older G e r b'.
Proof. unfold older. destruct r; intros; try lia. specialize (H _ _ H1). lia. Qed.
Lemma rel_le G b b' m p : rel G b m p -> b <= b' -> rel G b' m p.
Proof.
  destruct 1; intros Hb.
  - constructor.
  - apply rel_den; assumption.
  - eapply rel_memo; eassumption.
  - eapply rel_alias; eauto using older_le.
Qed.
Lemma rel_ext G x b m p : rel G b m p -> rel (G ++ [x]) b m p.
Proof.
  destruct 1.
  - constructor.
  - apply rel_den, den_ext; assumption.
  - eapply rel_memo; eauto using den_ext.
  - eapply rel_alias; [apply den_env_ext; eassumption | assumption |].
    unfold older in *. destruct r; try assumption. intros a j.
    erewrite gcell_ext by eassumption. apply H1.
Qed.
Lemma rels_ext G x b ms ps : Forall2 (rel G b) ms ps -> Forall2 (rel (G ++ [x]) b) ms ps.
Proof. apply Forall2_impl. intros; apply rel_ext; assumption. Qed.
Lemma rels_le G b b' ms ps : Forall2 (rel G b) ms ps -> b <= b' -> Forall2 (rel G b') ms ps.
Proof. intros H Hb. eapply Forall2_impl; [| exact H]. intros; eapply rel_le; eassumption. Qed.
Lemma rk_ext G x k k' : rk G k k' -> rk (G ++ [x]) k k'.
Proof.
  destruct 1; constructor; eauto using den_env_ext, den_ext.
  apply rels_ext. eapply rels_le; [eassumption |]. rewrite app_length; simpl; lia.
Qed.
Lemma rs_ext G x b p seg K K' : rs G b p seg K K' -> rs (G ++ [x]) b p seg K K'.
Proof.
  induction 1.
  - constructor.
  - constructor; [apply rk_ext; assumption | assumption].
  - econstructor; [apply den_env_ext; eassumption | erewrite gcell_ext by eassumption; eassumption
                  | apply gval_ext; eassumption | eassumption | eassumption].
Qed.
Lemma hp_ext G h ms ps : hp G h -> Forall2 (rel G (length G)) ms ps -> hp (G ++ [ps]) (h ++ [ms]).
Proof.
  intros (Hl & Hg & Hs) Hn. split; [| split].
  - rewrite !app_length. simpl. lia.
  - rewrite nth_error_app1; [exact Hg |]. apply nth_error_Some. congruence.
  - intros a Ha. rewrite app_length in Ha. simpl in Ha.
    destruct (Nat.eq_dec a (length G)) as [->|Hne].
    + replace (nth (length G) (h ++ [ms]) []) with ms
        by (rewrite app_nth2 by lia; rewrite Hl, Nat.sub_diag; reflexivity).
      replace (nth (length G) (G ++ [ps]) []) with ps
        by (rewrite app_nth2 by lia; rewrite Nat.sub_diag; reflexivity).
      apply rels_ext. exact Hn.
    + rewrite !app_nth1 by lia. apply rels_ext, Hs. lia.
Qed.

(** * Reading the heap *)
Lemma hp_length G h a : hp G h -> length (nth a h []) = length (nth a G []).
Proof.
  intros (Hl & _ & Hs). destruct (Nat.lt_ge_cases a (length G)) as [Ha|Ha].
  - eapply Forall2_length, Hs; assumption.
  - rewrite !nth_overflow by lia. reflexivity.
Qed.
Lemma hp_cell G h e i : hp G h -> cell h e i = gcell G e i.
Proof.
  intros Hh. revert i. induction e as [|[a rm] e IH]; intros i; [reflexivity |].
  cbn [cell gcell].
  assert (logical_len h (a, rm) = glen G (a, rm)) as ->.
  { unfold logical_len, glen, array; cbn [fst snd]. destruct rm; [apply hp_length; exact Hh | reflexivity]. }
  rewrite IH. reflexivity.
Qed.

Lemma Forall2_nth_error {A B} (R : A -> B -> Prop) l l' i x :
  Forall2 R l l' -> nth_error l i = Some x -> exists y, nth_error l' i = Some y /\ R x y.
Proof.
  intros H. revert i. induction H; intros [|i]; simpl; try discriminate; eauto.
  intros [= ->]. eauto.
Qed.
Lemma Forall2_nth_error_r {A B} (R : A -> B -> Prop) l l' i y :
  Forall2 R l l' -> nth_error l' i = Some y -> exists x, nth_error l i = Some x /\ R x y.
Proof.
  intros H. revert i. induction H; intros [|i]; simpl; try discriminate; eauto.
  intros [= ->]. eauto.
Qed.

Lemma gcell_some G e pe i a j : den_env G e pe -> gcell G e i = Some (a, j) ->
  a < length G /\ exists p, gval G a j = Some p /\ lookup pe i = Some p.
Proof.
  intros H. revert i. induction H as [ | b rm e vs pe [Hb Hv] _ IH | b e fs pe Hb Hv _ IH]; intros i.
  - discriminate.
  - cbn [gcell lookup].
    assert (glen G (b, rm) = length vs) as ->.
    { unfold glen; cbn [fst snd]. destruct rm; [rewrite Hv; reflexivity | eapply Forall2_length; exact Hv]. }
    destruct (Nat.ltb_spec i (length vs)) as [Hi|Hi]; [| apply IH].
    intros [= <- <-]. split; [assumption |]. unfold physical_index; cbn [fst snd].
    destruct rm as [|j0 rm].
    + unfold gval. rewrite Hv. destruct (nth_error vs i) eqn:E; [eauto |].
      apply nth_error_None in E. lia.
    + destruct (nth_error (j0 :: rm) i) as [j|] eqn:E.
      * destruct (Forall2_nth_error _ _ _ _ _ Hv E) as (p & Hp & Hg).
        rewrite (nth_error_nth _ _ 0 E). eauto.
      * apply nth_error_None in E. apply Forall2_length in Hv. lia.
  - cbn [gcell lookup].
    assert (glen G (b, []) = length fs) as ->.
    { unfold glen; cbn [fst snd]. rewrite Hv. apply map_length. }
    destruct (Nat.ltb_spec i (length fs)) as [Hi|Hi]; [| apply IH].
    intros [= <- <-]. split; [assumption |]. unfold physical_index; cbn [fst snd].
    unfold gval. rewrite Hv. rewrite nth_error_map.
    destruct (nth_error fs i) eqn:E; [simpl; eauto |]. apply nth_error_None in E. lia.
Qed.
Lemma gcell_none G e pe i : den_env G e pe -> gcell G e i = None -> lookup pe i = None.
Proof.
  intros H. revert i. induction H as [ | b rm e vs pe [Hb Hv] _ IH | b e fs pe Hb Hv _ IH]; intros i.
  - reflexivity.
  - cbn [gcell lookup].
    assert (glen G (b, rm) = length vs) as ->.
    { unfold glen; cbn [fst snd]. destruct rm; [rewrite Hv; reflexivity | eapply Forall2_length; exact Hv]. }
    destruct (Nat.ltb_spec i (length vs)) as [Hi|Hi]; [discriminate | apply IH].
  - cbn [gcell lookup].
    assert (glen G (b, []) = length fs) as ->.
    { unfold glen; cbn [fst snd]. rewrite Hv. apply map_length. }
    destruct (Nat.ltb_spec i (length fs)) as [Hi|Hi]; [discriminate | apply IH].
Qed.

Lemma hp_slot G h a j p : hp G h -> a < length G -> gval G a j = Some p ->
  exists m, slot h a j = Some m /\ rel G a m p.
Proof.
  intros (Hl & _ & Hs) Ha Hg. specialize (Hs a Ha).
  unfold slot, array. eapply Forall2_nth_error_r; eassumption.
Qed.
Lemma hp_get G h e pe i : hp G h -> den_env G e pe ->
  match get h e i with
  | Some m => exists a j p, gcell G e i = Some (a, j) /\ a < length G /\ gval G a j = Some p /\
                            lookup pe i = Some p /\ rel G a m p
  | None => lookup pe i = None
  end.
Proof.
  intros Hh He. unfold get. rewrite (hp_cell G h e i Hh).
  destruct (gcell G e i) as [[a j]|] eqn:E.
  - destruct (gcell_some G e pe i a j He E) as (Ha & p & Hg & Hl).
    destruct (hp_slot G h a j p Hh Ha Hg) as (m & Hm & Hr). rewrite Hm. exists a, j, p. auto.
  - eapply gcell_none; eassumption.
Qed.

Lemma globals_den G h : hp G h -> den_env G globals_env [Vals (map (closure []) globals)].
Proof.
  intros (_ & Hg & _). unfold globals_env. constructor; [| constructor].
  assert (0 < length G) by (apply nth_error_Some; congruence).
  split; [assumption |]. apply nth_error_nth. exact Hg.
Qed.
Lemma globals_lookup i :
  lookup [Vals (map (closure []) globals)] i = option_map (closure []) (nth_error globals i).
Proof.
  cbn [lookup]. rewrite map_length, nth_error_map.
  destruct (Nat.ltb_spec i (length globals)); [reflexivity |].
  rewrite (proj2 (nth_error_None _ _)) by assumption. reflexivity.
Qed.

(** The environment and slot number a variable names. *)
Definition place (e : menv) (r : ref) : option (menv * nat) :=
  match r with
  | RL i => Some (e, N.to_nat i)
  | RG i => Some (globals_env, N.to_nat i)
  | RV _ => None
  end.
Lemma place_den G h e pe r e' i : hp G h -> den_env G e pe -> place e r = Some (e', i) ->
  exists pe', den_env G e' pe' /\ lookup pe' i = variable pe r /\
  (forall b, older G e r b -> forall a j, gcell G e' i = Some (a, j) -> a < b).
Proof.
  intros Hh He. destruct r; simpl; intros [= <- <-].
  - exists pe. split; [assumption | split; [reflexivity |]]. intros b Ho. exact Ho.
  - exists [Vals (map (closure []) globals)]. split; [eapply globals_den; eassumption |].
    split; [apply globals_lookup |]. intros b Ho a j Hc. cbn [gcell globals_env] in Hc. unfold globals_env in Hc. cbn [gcell] in Hc.
    destruct (N.to_nat i0 <? glen G (0, [])); [| discriminate]. injection Hc as <- _. exact Ho.
Qed.

Lemma hp_resolve G h e pe r : hp G h -> den_env G e pe ->
  match resolve_ref h e r with
  | Some m => exists p, variable pe r = Some p /\ rel G (length G) m p
  | None => variable pe r = None
  end.
Proof.
  intros Hh He. destruct r as [i | i | n]; simpl.
  - pose proof (hp_get G h e pe (N.to_nat i) Hh He) as Hg.
    destruct (get h e (N.to_nat i)); [| exact Hg].
    destruct Hg as (a & j & p & _ & Ha & _ & Hl & Hr). exists p. split; [exact Hl |].
    eapply rel_le; [exact Hr | lia].
  - pose proof (hp_get G h _ _ (N.to_nat i) Hh (globals_den G h Hh)) as Hg.
    rewrite globals_lookup in Hg.
    destruct (get h globals_env (N.to_nat i)); [| exact Hg].
    destruct Hg as (a & j & p & _ & Ha & _ & Hl & Hr). exists p. split; [exact Hl |].
    eapply rel_le; [exact Hr | lia].
  - exists (VNat n). split; [reflexivity | apply rel_den; constructor].
Qed.
Lemma hp_resolves G h e pe rs : hp G h -> den_env G e pe ->
  match resolve_refs h e rs with
  | Some ms => exists ps, variables pe rs = Some ps /\ Forall2 (rel G (length G)) ms ps
  | None => variables pe rs = None
  end.
Proof.
  intros Hh He. induction rs as [|r rs IH]; simpl; [eauto |].
  pose proof (hp_resolve G h e pe r Hh He) as Hr.
  destruct (resolve_ref h e r) as [m|].
  - destruct Hr as (p & -> & Hr). destruct (resolve_refs h e rs) as [ms|].
    + destruct IH as (ps & -> & IH). eauto.
    + rewrite IH. reflexivity.
  - rewrite Hr. reflexivity.
Qed.

Lemma older_all G e pe r : den_env G e pe -> 0 < length G -> older G e r (length G).
Proof.
  intros He H0. destruct r; simpl; auto. intros a j Hc. eapply gcell_some; eassumption.
Qed.
Lemma hp_pos G h : hp G h -> 0 < length G.
Proof. intros (_ & Hg & _). apply nth_error_Some. congruence. Qed.

(** An argument passed as a variable. *)
Lemma rel_argument G h e pe r : hp G h -> den_env G e pe -> rel G (length G) (clo (SAtom r) e) (argument pe r).
Proof.
  intros Hh He. unfold Spec.argument. destruct (variable pe r) as [p|] eqn:E.
  - eapply rel_alias; eauto using older_all, hp_pos.
  - apply rel_den. constructor; [assumption | exact I].
Qed.
Lemma hp_make_arg G h e pe eager r : hp G h -> den_env G e pe ->
  match make_arg h e eager r with
  | Some m => eager && unbound_local pe r = false /\ rel G (length G) m (argument pe r)
  | None => eager && unbound_local pe r = true
  end.
Proof.
  intros Hh He. pose proof (rel_argument G h e pe r Hh He) as Ha.
  unfold make_arg. destruct r as [i | i | n]; simpl; rewrite ?andb_false_r; auto.
  pose proof (hp_get G h e pe (N.to_nat i) Hh He) as Hg.
  destruct (get h e (N.to_nat i)) as [m|].
  - destruct Hg as (a & j & p & _ & Hlt & _ & Hl & Hr).
    rewrite Hl, andb_false_r. destruct (eager || is_settled m); [| auto].
    split; [reflexivity |]. unfold Spec.argument. simpl. rewrite Hl. eapply rel_le; [exact Hr | lia].
  - rewrite Hg, andb_true_r. destruct eager; auto.
Qed.
Lemma hp_make_args G h e pe eager rs : hp G h -> den_env G e pe ->
  match make_args h e eager rs with
  | Some ms => exists ps, arguments eager pe rs = Some ps /\ Forall2 (rel G (length G)) ms ps
  | None => arguments eager pe rs = None
  end.
Proof.
  intros Hh He. unfold Spec.arguments.
  induction rs as [|r rs IH]; simpl.
  - rewrite andb_false_r. eauto.
  - pose proof (hp_make_arg G h e pe eager r Hh He) as Hr.
    destruct (make_arg h e eager r) as [m|].
    + destruct Hr as [Hu Hr]. destruct eager; simpl in *.
      * rewrite Hu. simpl. destruct (make_args h e true rs) as [ms|].
        -- destruct (existsb (unbound_local pe) rs); [destruct IH as (ps & IH & _); discriminate |].
           destruct IH as (ps & [= <-] & IH). eauto.
        -- destruct (existsb (unbound_local pe) rs); [reflexivity | discriminate].
      * destruct (make_args h e false rs) as [ms|]; [| discriminate].
        destruct IH as (ps & [= <-] & IH). eauto.
    + destruct eager; simpl in *; [| discriminate]. rewrite Hr. reflexivity.
Qed.

(** * Writing the heap *)
Lemma set_at_length {A} i (x : A) l : length (set_at i x l) = length l.
Proof. revert i; induction l; intros [|i]; simpl; auto. Qed.
Lemma nth_set_at_same {A} i (x d : A) l : i < length l -> nth i (set_at i x l) d = x.
Proof. revert i; induction l; intros [|i]; simpl; intros; try lia; auto. apply IHl; lia. Qed.
Lemma nth_set_at_other {A} i k (x d : A) l : i <> k -> nth k (set_at i x l) d = nth k l d.
Proof. revert i k; induction l; intros [|i] [|k]; simpl; intros; try lia; auto. Qed.
Lemma Forall2_set_at {A B} (R : A -> B -> Prop) l l' i x y :
  Forall2 R l l' -> nth_error l' i = Some y -> R x y -> Forall2 R (set_at i x l) l'.
Proof.
  intros H. revert i. induction H; intros [|i]; simpl; intros Hn Hr; try discriminate.
  - injection Hn as ->. constructor; assumption.
  - constructor; eauto.
Qed.
Lemma hp_put G h e pe i a j p m : hp G h -> den_env G e pe -> gcell G e i = Some (a, j) ->
  gval G a j = Some p -> rel G a m p -> exists h', put h e i m = Some h' /\ hp G h'.
Proof.
  intros Hh He Hc Hg Hr.
  destruct (gcell_some G e pe i a j He Hc) as (Ha & _).
  unfold put. rewrite (hp_cell G h e i Hh), Hc.
  assert (j < length (array h a)).
  { unfold array. rewrite (hp_length G h a Hh). unfold gval in Hg. apply nth_error_Some. congruence. }
  rewrite (proj2 (Nat.ltb_lt _ _)) by assumption. eexists. split; [reflexivity |].
  destruct Hh as (Hl & Hglob & Hs). unfold set_slot. split; [| split].
  - rewrite set_at_length. exact Hl.
  - exact Hglob.
  - intros b Hb. destruct (Nat.eq_dec a b) as [<-|Hne].
    + rewrite nth_set_at_same by lia. eapply Forall2_set_at; [apply Hs; assumption | exact Hg | exact Hr].
    + rewrite nth_set_at_other by assumption. apply Hs; assumption.
Qed.

(** * The stack *)
(** At least one step. *)
Definition strides (S S' : pstate) : Prop := exists n, steps (Datatypes.S n) S S'.
Lemma strides_one S S' : pstep S = Some S' -> strides S S'.
Proof. intros H. exists 0. apply steps_one. exact H. Qed.
Lemma strides_after S S' S'' : reaches S S' -> strides S' S'' -> strides S S''.
Proof.
  intros [n Hn] [k Hk]. exists (n + k). replace (Datatypes.S (n + k)) with (n + Datatypes.S k) by lia.
  eapply steps_trans; eassumption.
Qed.
Lemma strides_then S S' S'' : strides S S' -> reaches S' S'' -> strides S S''.
Proof.
  intros [n Hn] [k Hk]. exists (n + k). replace (Datatypes.S (n + k)) with (Datatypes.S n + k) by lia.
  eapply steps_trans; eassumption.
Qed.
Lemma strides_reaches S S' : strides S S' -> reaches S S'.
Proof. intros [n Hn]. eexists; exact Hn. Qed.

Lemma rs_move G b b' p seg K K' p' seg' : rs G b p seg K K' ->
  (forall T, exists n, (b = true \/ 0 < n \/ b' = false) /\ steps n (p, seg ++ T) (p', seg' ++ T)) ->
  rs G b' p' seg' K K'.
Proof.
  intros H. revert p' seg'. induction H as [b p seg | b p seg k k' K K' Hk Hs IH | b p seg e pe i a j p0 K K' He Hc Hg Hst Hs IH];
    intros p' seg' Hr.
  - constructor.
  - constructor; [assumption |]. apply IH. intros T. rewrite <- !app_assoc. apply Hr.
  - econstructor; try eassumption. intros T. destruct (Hst T) as (n & Hn & Hsn). destruct (Hr T) as (m & Hm & Hsm).
    exists (n + m). split; [| eapply steps_trans; eassumption].
    intros ->. destruct Hm as [-> | [Hm | Hm]]; [specialize (Hn eq_refl); lia | lia | discriminate].
Qed.
Lemma rs_weaken G p seg K K' b : rs G true p seg K K' -> rs G b p seg K K'.
Proof. intros H. eapply rs_move; [exact H |]. intros T. exists 0. split; [auto | constructor]. Qed.
Lemma rs_reaches G b p K K' p' : rs G b p [] K K' -> (forall T, reaches (p, T) (p', T)) -> rs G b p' [] K K'.
Proof.
  intros H Hr. eapply rs_move; [exact H |]. intros T. destruct (Hr T) as [n Hn]. exists n.
  split; [| exact Hn]. destruct b; auto.
Qed.
Lemma rs_step G b p seg K K' p' seg' :
  rs G b p seg K K' -> (forall T, strides (p, seg ++ T) (p', seg' ++ T)) -> rs G true p' seg' K K'.
Proof.
  intros H Hr. eapply rs_move; [exact H |]. intros T. destruct (Hr T) as [n Hn]. exists (S n).
  split; [right; left; lia | exact Hn].
Qed.
Lemma rs_on G b p K K' p' : rs G b p [] K K' -> (forall T, strides (p, T) (p', T)) -> rs G true p' [] K K'.
Proof. intros H Hr. eapply rs_step; [exact H | exact Hr]. Qed.
Lemma rs_push G b p K K' p' k k' : rs G b p [] K K' -> rk G k k' ->
  (forall T, strides (p, T) (p', k' :: T)) -> rs G true p' [] (k :: K) (k' :: K').
Proof. intros H Hk Hr. constructor; [assumption |]. eapply rs_step; [exact H | exact Hr]. Qed.
Lemma rs_pop G b p k' K K' p' : rs G b p [k'] K K' -> (forall T, strides (p, k' :: T) (p', T)) ->
  rs G true p' [] K K'.
Proof. intros H Hr. eapply rs_step; [exact H | exact Hr]. Qed.

(** A slot awaiting an update whose value is needed. *)
Lemma rs_pending G b p seg K K' e i a j p0 : rs G b p seg K K' -> b = true -> In (KUpdate e i) K ->
  gcell G e i = Some (a, j) -> gval G a j = Some p0 ->
  exists pre post, K' = pre ++ post /\ forall T, strides (p0, T) (p, seg ++ pre ++ T).
Proof.
  intros H. induction H as [b p seg | b p seg k k' K K' Hk Hs IH | b p seg e1 pe i1 a1 j1 p1 K K' He Hc Hg Hst Hs IH];
    intros Hb Hin Hce Hge.
  - destruct Hin.
  - destruct Hin as [-> | Hin]; [inversion Hk |]. destruct (IH Hb Hin Hce Hge) as (pre & post & -> & Hstr).
    exists (k' :: pre), post. split; [reflexivity |]. intros T. specialize (Hstr T).
    rewrite <- app_assoc in Hstr. exact Hstr.
  - assert (Hstr1 : forall T, strides (p1, T) (p, seg ++ T)).
    { intros T. destruct (Hst T) as (n & Hn & Hsn). specialize (Hn Hb). exists (n - 1).
      replace (S (n - 1)) with n by lia. exact Hsn. }
    destruct Hin as [Heq | Hin].
    + injection Heq as -> ->. assert (p1 = p0) as -> by congruence.
      exists [], K'. split; [reflexivity | exact Hstr1].
    + destruct (IH eq_refl Hin Hce Hge) as (pre & post & -> & Hstr). exists pre, post. split; [reflexivity |].
      intros T. specialize (Hstr T). cbn [app] in Hstr.
      eapply strides_then; [exact Hstr | apply strides_reaches, Hstr1].
Qed.
(** A value that needs itself has no end. *)
Lemma loops p pre : (forall T, strides (p, T) (p, pre ++ T)) ->
  forall n T F, steps n (p, T) F -> pstep F <> None.
Proof.
  intros Hl. induction n as [n IH] using lt_wf_ind. intros T F Hn HF.
  destruct (Hl T) as [k Hk]. destruct (Nat.le_gt_cases (S k) n) as [Hle | Hgt].
  - pose proof (steps_split prim merge globals n _ _ Hn _ _ Hk Hle) as Hrest.
    eapply (IH (n - S k)); [lia | exact Hrest | exact HF].
  - pose proof (steps_split prim merge globals (S k) _ _ Hk _ _ Hn ltac:(lia)) as Hrest.
    destruct (S k - n) as [|d] eqn:E; [lia |]. inversion Hrest; subst. congruence.
Qed.
End Rel.
