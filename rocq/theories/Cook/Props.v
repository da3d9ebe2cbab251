(** Implicit parameters. *)
From Coq Require Import String Ascii List Bool Arith NArith ZArith Permutation Sorted Lia.
From Verif.Scope Require Import Model Spec Proofs Props.
From Verif.Simplify Require Import Compress.
From Verif.Cook Require Import Model Spec PatternProofs CookProofs BlockProofs.
Import ListNotations.
Local Open Scope string_scope.
Local Open Scope list_scope.
Local Open Scope nat_scope.

(** ** C34: the order of implicit parameters *)

(** Collected in any order, the implicit parameters of an expression become its
    parameters in the documented order; only mixed kinds are an error; only a negative
    number crashes. *)
Theorem C34_order : forall m, m <> [] -> NoDup (map fst m) ->
  match to_binding_pattern m with
  | Done ps => documented m ps
  | Error => mixed (map fst m)
  | Panic => exists n, In (Numbered n) (map fst m) /\ (n < 0)%Z
  end.
Proof.
  intros m NE ND. pose proof (pattern_spec m ND) as H. destruct (to_binding_pattern m); auto. destruct H as [H|(_ & H)]; [contradiction|auto].
Qed.
Print Assumptions C34_order.

Theorem C34_mixed_rejected : forall m, mixed (map fst m) -> to_binding_pattern m = Error.
Proof. exact pattern_mixed. Qed.
Print Assumptions C34_mixed_rejected.

(** The order in which the hash map happens to list them does not matter, *)
Theorem C34_order_independent : forall m m', NoDup (map fst m) -> Permutation m m' -> to_binding_pattern m = to_binding_pattern m'.
Proof.
  intros m m' ND P.
  assert (ND' : NoDup (map fst m')) by (eapply Permutation_NoDup; [apply Permutation_map, P|exact ND]).
  assert (Keys : forall a, In a (map fst m) <-> In a (map fst m')).
  { intros a. split; apply Permutation_in; [|apply Permutation_sym]; apply Permutation_map; auto. }
  destruct m as [|x l]; [apply Permutation_nil in P; subst; reflexivity|].
  assert (NE' : m' <> []) by (intros ->; apply Permutation_sym, Permutation_nil in P; discriminate).
  pose proof (C34_order (x :: l) ltac:(discriminate) ND) as H. pose proof (C34_order m' NE' ND') as H'.
  assert (Mx : mixed (map fst (x :: l)) <-> mixed (map fst m')) by (unfold mixed; split; intros (a & b & Ha & Hb & K); exists a, b; rewrite ?Keys in *; rewrite <- ?Keys in *; auto).
  destruct (mixed_dec (map fst (x :: l))) as [M|M]; [rewrite !pattern_mixed; auto; apply Mx; auto|].
  assert (Doc : forall m n ps, documented m ps -> In (Numbered n) (map fst m) -> (n < 0)%Z -> False).
  { intros m0 n ps D Hn Ln. destruct D as [o _ [K|K] _ _ _|mx A _ _ _ _].
    - destruct (K _ Hn) as (? & ?). discriminate.
    - destruct (K _ Hn) as (? & ? & ?). discriminate.
    - destruct (A _ Hn) as (k & E & L). injection E as <-. lia. }
  destruct (to_binding_pattern (x :: l)) as [ps| |], (to_binding_pattern m') as [ps'| |]; auto; try (exfalso; tauto).
  - f_equal. exact (documented_unique _ _ _ _ ND P H H').
  - exfalso. destruct H' as (n & Hn & Ln). apply Keys in Hn. apply (Doc _ _ _ H Hn Ln).
  - exfalso. destruct H as (n & Hn & Ln). apply Keys in Hn. apply (Doc _ _ _ H' Hn Ln).
Qed.
Print Assumptions C34_order_independent.

(** and the documented order is unambiguous. *)
Theorem C34_order_unique : forall m ps ps', NoDup (map fst m) -> documented m ps -> documented m ps' -> ps = ps'.
Proof. intros m ps ps' ND. apply documented_unique; auto. Qed.
Print Assumptions C34_order_unique.

(** Although the order that the code gives the two sides of an operator is not lawful
    (a right side is greater than itself), the test for less-than that sorting uses is a
    strict order, total on each kind. *)
Theorem C34_order_lawful : forall a b c,
  anaphor_lt a a = false /\
  (kind_of a = kind_of b -> kind_of b = kind_of c -> anaphor_lt a b = true -> anaphor_lt b c = true -> anaphor_lt a c = true) /\
  (kind_of a = kind_of b -> a = b \/ anaphor_lt a b = true \/ anaphor_lt b a = true) /\
  (earlier a b -> anaphor_lt a b = true).
Proof.
  intros a b c. split; [|split; [|split]].
  - destruct (anaphor_lt a a) eqn:E; auto. exfalso. apply (proj1 (lt_before a a eq_refl)) in E. exact (before_irrefl _ E).
  - intros K1 K2 H1 H2. apply (proj1 (lt_before _ _ K1)) in H1. apply (proj1 (lt_before _ _ K2)) in H2.
    apply (proj2 (lt_before a c (eq_trans K1 K2))). eapply before_trans; eauto.
  - intros K. destruct (before_total a b K) as [->|[H|H]]; auto; right; [left|right]; [apply (proj2 (lt_before _ _ K)), H|apply (proj2 (lt_before _ _ (eq_sym K))), H].
  - intros H. assert (B : before a b) by (left; exact H). apply (proj2 (lt_before a b (before_kind _ _ B))). exact B.
Qed.
Print Assumptions C34_order_lawful.
Theorem C34_comparison_refuted : side_cmp SideRight SideRight = Gt /\ side_cmp SideRight SideLeft = Eq.
Proof. split; reflexivity. Qed.
Print Assumptions C34_comparison_refuted.

(** What the parameters are as positions: the reference to an anaphor is a reference to
    its own number, and earlier anaphora have earlier positions. *)
Lemma position_nth : forall ps n i, NoDup ps -> nth_error ps i = Some n -> position ps n = Some i.
Proof.
  induction ps as [|x ps IH]; intros n [|i] ND E; cbn [nth_error] in E; try discriminate.
  - injection E as ->. cbn. rewrite String.eqb_refl. reflexivity.
  - inversion ND as [|? ? N1 N2]; subst. cbn. destruct (String.eqb_spec x n) as [->|N].
    + exfalso. apply N1. eapply nth_error_In; eauto.
    + rewrite (IH n i N2 E). reflexivity.
Qed.
Lemma documented_nodup : forall nm l m ps, (forall a b, nm a = nm b -> a = b) -> (forall a i, nm a <> gap_name i) ->
  parameters nm l m -> documented m ps -> NoDup ps.
Proof.
  intros nm l m ps Inj Ng (ND & P) D. destruct D as [o NE K Po So ->|mx A Hmx L N G].
  - assert (NDo : NoDup (map fst o)) by (eapply Permutation_NoDup; [apply Permutation_map, Permutation_sym, Po|exact ND]).
    assert (Po' : forall p, In p o -> snd p = nm (fst p)).
    { intros [a x] H. apply (Permutation_in _ Po) in H. apply P in H. cbn. tauto. }
    clear - NDo Po' Inj. induction o as [|p o IH]; cbn; [constructor|]. cbn in NDo. inversion NDo as [|? ? N1 N2]; subst.
    constructor; [|apply IH; auto; intros q Hq; apply Po'; right; auto].
    intros H. apply in_map_iff in H. destruct H as (q & E & Hq). apply N1.
    rewrite (Po' p (or_introl eq_refl)), (Po' q (or_intror Hq)) in E. apply Inj in E. rewrite <- E. apply in_map. auto.
  - assert (Each : forall i, i <= mx -> nth_error ps i = Some (nm (Numbered (Z.of_nat i))) \/ nth_error ps i = Some (gap_name i)).
    { intros i Hi. destruct (get m (Numbered (Z.of_nat i))) as [x|] eqn:E.
      - left. apply (get_in _ _ _ ND) in E. rewrite (N _ _ E). apply P in E. destruct E as (_ & ->). reflexivity.
      - right. apply get_none in E. apply G; auto. }
    apply (proj2 (NoDup_nth_error ps)). intros i j Hi E. rewrite L in Hi.
    assert (Hj : j <= mx). { assert (J : nth_error ps j <> None). { rewrite <- E. apply nth_error_Some. lia. } apply nth_error_Some in J. lia. }
    destruct (Each i ltac:(lia)) as [Ei|Ei], (Each j Hj) as [Ej|Ej]; rewrite Ei, Ej in E; assert (E' := f_equal (fun o => match o with Some x => x | None => "" end) E); cbv beta iota in E'; clear E; rename E' into E.
    + apply Inj in E. injection E as E. lia.
    + exfalso. eapply Ng; eauto.
    + exfalso. eapply Ng; symmetry; eauto.
    + apply gap_name_inj in E. exact E.
Qed.
Lemma documented_positions : forall nm l m ps, (forall a b, nm a = nm b -> a = b) -> (forall a i, nm a <> gap_name i) ->
  parameters nm l m -> documented m ps ->
  (forall n, In (Numbered n) l -> position ps (nm (Numbered n)) = Some (Z.to_nat n)) /\
  (forall a b, In a l -> In b l -> earlier a b ->
     exists i j, position ps (nm a) = Some i /\ position ps (nm b) = Some j /\ i < j) /\
  (forall a, In a l -> exists i, position ps (nm a) = Some i).
Proof.
  intros nm l m ps Inj Ng Pm D. pose proof (documented_nodup nm l m ps Inj Ng Pm D) as NDp.
  pose proof (parameters_keys nm l m Pm) as Keys. destruct Pm as (ND & P).
  assert (In_m : forall a, In a l -> In (a, nm a) m) by (intros a Ha; apply P; auto).
  destruct D as [o NE K Po So ->|mx A Hmx L N G].
  - assert (Pos : forall a, In a l -> exists i, nth_error o i = Some (a, nm a)).
    { intros a Ha. apply In_m in Ha. apply (Permutation_in _ (Permutation_sym Po)) in Ha. apply In_nth_error in Ha. exact Ha. }
    assert (Pos' : forall a i, nth_error o i = Some (a, nm a) -> position (map snd o) (nm a) = Some i).
    { intros a i E. apply position_nth; auto. rewrite nth_error_map, E. reflexivity. }
    split; [|split].
    + intros n Hn. apply Keys in Hn. destruct K as [K|K]; [destruct (K _ Hn) as (? & ?)|destruct (K _ Hn) as (? & ? & ?)]; discriminate.
    + intros a b Ha Hb E. destruct (Pos a Ha) as (i & Ei), (Pos b Hb) as (j & Ej). exists i, j. split; auto. split; auto.
      destruct (Nat.lt_trichotomy i j) as [|[->|Lt]]; auto; exfalso.
      * rewrite Ei in Ej. injection Ej as ->. apply (before_irrefl b). left. exact E.
      * assert (earlier b a).
        { clear - So Ei Ej Lt. revert i j Ei Ej Lt. induction So as [|p o S IH F]; intros i j Ei Ej Lt; [destruct i; discriminate|].
          destruct i as [|i]; [lia|]. destruct j as [|j]; cbn in Ei, Ej.
          - injection Ej as ->. rewrite Forall_forall in F. apply nth_error_In in Ei. exact (F _ Ei).
          - eapply IH; eauto. lia. }
        apply (before_irrefl a). eapply before_trans; left; eauto.
    + intros a Ha. destruct (Pos a Ha) as (i & Ei). eauto.
  - assert (Num : forall n, In (Numbered n) l -> position ps (nm (Numbered n)) = Some (Z.to_nat n)).
    { intros n Hn. assert (Kn := proj2 (Keys _) Hn). destruct (A _ Kn) as (k & E & Lk). injection E as <-. apply position_nth; auto.
      apply N. rewrite Z2Nat.id by lia. apply In_m. auto. }
    split; auto. split.
    + intros a b Ha Hb E. apply Keys in Ha. destruct (A _ Ha) as (k & -> & _). destruct E.
    + intros a Ha. assert (Ka := proj2 (Keys _) Ha). destruct (A _ Ka) as (k & -> & _). eauto.
Qed.
Theorem C34_positions : forall l m ps, parameters expr_name l m -> documented m ps ->
  NoDup ps /\
  (forall n, In (Numbered n) l -> position ps (expr_name (Numbered n)) = Some (Z.to_nat n)) /\
  (forall a b, In a l -> In b l -> earlier a b ->
     exists i j, position ps (expr_name a) = Some i /\ position ps (expr_name b) = Some j /\ i < j) /\
  (forall a, In a l -> exists i, position ps (expr_name a) = Some i).
Proof.
  intros l m ps P D. split; [eapply documented_nodup|eapply documented_positions]; eauto using expr_name_inj; intros a i E; discriminate E.
Qed.
Print Assumptions C34_positions.

(** ** Expressions *)

(** An expression with implicit parameters of its own, not inside another one: it
    becomes the function whose parameters are those implicit parameters in the
    documented order, and whose body is what the same expression with the implicit
    parameters written as variables becomes. *)
Theorem C34_function : forall shunt b xs p e st,
  cook shunt (RSoup b xs) (mkSt false [] p) = Done (e, st) -> own_anaphora xs ->
  exists body ps m,
    cook shunt (explicit expr_name (RSoup b xs)) (mkSt false [] p) = Done (body, st) /\
    parameters expr_name (anaphora_in (RSoup b xs)) m /\ documented m ps /\
    e = ELam false ps (close_expr_vars ps 0 body).
Proof.
  intros shunt b xs p e st E Ow. pose proof (cook_soup_rel shunt b xs p (cook_located shunt _ _ _ E) Ow) as H.
  destruct (cook shunt (explicit _ _) _) as [[body s]| |]; try congruence. destruct H as (_ & m & P & Q). rewrite Q in E.
  destruct (to_binding_pattern m) as [ps| |] eqn:Et; try discriminate E. cbn [obind] in E. injection E as <- <-.
  exists body, ps, m. split; auto. split; auto. split; auto.
  pose proof (pattern_spec m (proj1 P)) as S. rewrite Et in S. exact S.
Qed.
Print Assumptions C34_function.

(** It is an error exactly if it would be with variables, or if kinds are mixed, or if
    there is a gap with nothing to identify it; with natural numbers it does not crash. *)
Theorem C34_accepted : forall shunt b xs p body st, located (RSoup b xs) -> own_anaphora xs ->
  cook shunt (explicit expr_name (RSoup b xs)) (mkSt false [] p) = Done (body, st) ->
  (forall n, In (Numbered n) (anaphora_in (RSoup b xs)) -> (0 <= n)%Z) ->
  (mixed (anaphora_in (RSoup b xs)) /\ cook shunt (RSoup b xs) (mkSt false [] p) = Error) \/
  (~ mixed (anaphora_in (RSoup b xs)) /\ exists e, cook shunt (RSoup b xs) (mkSt false [] p) = Done (e, st)).
Proof.
  intros shunt b xs p body st Lc Ow E Nn. pose proof (cook_soup_rel shunt b xs p Lc Ow) as H. rewrite E in H.
  destruct H as (_ & m & P & ->). pose proof (parameters_keys _ _ _ P) as Keys.
  assert (Mx : mixed (map fst m) <-> mixed (anaphora_in (RSoup b xs))).
  { unfold mixed. split; intros (x & y & Hx & Hy & K); exists x, y; [rewrite <- !Keys|rewrite !Keys]; auto. }
  destruct (mixed_dec (map fst m)) as [M|M].
  - left. split; [apply Mx; auto|]. rewrite (pattern_mixed _ M). reflexivity.
  - right. split; [rewrite <- Mx; auto|]. pose proof (pattern_spec m (proj1 P)) as S. destruct (to_binding_pattern m) as [ps| |]; cbn [obind]; eauto.
    + contradiction.
    + exfalso. destruct S as [->|(_ & n & Hn & Ln)].
      * assert (NA : anaphora_in (RSoup b xs) <> []).
        { cbn [anaphora_in]. destruct Ow as [(a & Ha)|Hs].
          - intros Z. apply app_eq_nil in Z. destruct Z as (_ & Z). apply in_split in Ha. destruct Ha as (l1 & l2 & ->).
            rewrite flat_map_app in Z. apply app_eq_nil in Z. destruct Z as (_ & Z). discriminate Z.
          - intros Z. apply app_eq_nil in Z. tauto. }
        destruct (anaphora_in (RSoup b xs)) as [|a l]; [congruence|]. specialize (Keys a). cbn in Keys. tauto.
      * apply Keys in Hn. specialize (Nn _ Hn). lia.
Qed.
Print Assumptions C34_accepted.

(** What the function does, whatever the meaning of anything else: its body's value with
    each implicit parameter's variable having the value of its parameter. *)
Theorem C34_value : forall (I : interp) shunt b xs p e st rho env,
  cook shunt (RSoup b xs) (mkSt false [] p) = Done (e, st) -> own_anaphora xs ->
  exists body ps m,
    cook shunt (explicit expr_name (RSoup b xs)) (mkSt false [] p) = Done (body, st) /\
    parameters expr_name (anaphora_in (RSoup b xs)) m /\ documented m ps /\
    den I rho env e = i_lam I false ps (fun vs => den I (bind_names (i_dangling I) ps vs rho) env body).
Proof.
  intros I shunt b xs p e st rho env E Ow. destruct (C34_function _ _ _ _ _ _ E Ow) as (body & ps & m & A & B & C & ->).
  exists body, ps, m. split; auto. split; auto. split; auto. cbn [den]. apply i_lam_ext. intros vs. apply C05_close_meaning.
Qed.
Print Assumptions C34_value.

(** Inside such an expression everything below belongs to it: there is no further
    function.  (The whole of the inner expression is cooked as if its implicit
    parameters were variables.) *)
Theorem C34_no_nesting : forall shunt r p e st, cook shunt r (mkSt true [] p) = Done (e, st) ->
  in_scope st = true /\ parameters expr_name (anaphora_in r) (pe st) /\
  cook shunt (explicit expr_name r) (mkSt false [] p) = Done (e, mkSt false [] (pb st)).
Proof.
  intros shunt r p e st E. pose proof (cook_rel shunt r (cook_located shunt _ _ _ E) [] p) as R.
  specialize (R (conj (NoDup_nil _) (fun a x (H : In (a, x) []) => match H with end))). unfold rel in R. rewrite E in R.
  destruct (cook shunt (explicit _ r) _) as [[e2 s2]| |]; try contradiction. destruct R as (-> & A & -> & G). split; auto. split; auto.
  apply grown_parameters, G.
Qed.
Print Assumptions C34_no_nesting.

(** An expression without any is left as it is. *)
Theorem C34_no_anaphora : forall shunt r p, located r -> anaphora_in r = [] ->
  cook shunt r (mkSt true [] p) = match cook shunt (explicit expr_name r) (mkSt false [] p) with
    | Done (e, st) => Done (e, mkSt true [] (pb st)) | Error => Error | Panic => Panic end.
Proof.
  intros shunt r p L N. pose proof (cook_rel shunt r L [] p) as R.
  specialize (R (conj (NoDup_nil _) (fun a x (H : In (a, x) []) => match H with end))). unfold rel in R. rewrite N in R.
  destruct (cook shunt r _) as [[e1 s1]| |], (cook shunt (explicit _ r) _) as [[e2 s2]| |]; try contradiction; auto.
  destruct R as (-> & A & -> & G). f_equal. f_equal. destruct s1 as [i q p1]. cbn in *. subst i. f_equal.
  destruct G as (_ & _ & C). destruct q as [|[a x] q]; auto. exfalso. specialize (C a). cbn in C. tauto.
Qed.
Print Assumptions C34_no_anaphora.

(** No implicit parameter is left without a function, when every one stands in a soup. *)
Theorem C34_all_bound : forall shunt r p e st, in_soups r -> cook shunt r (mkSt false [] p) = Done (e, st) ->
  in_scope st = false /\ pe st = [].
Proof. intros. eapply cook_exprs_bound; eauto. Qed.
Print Assumptions C34_all_bound.
Theorem C34_all_block_bound : forall shunt r s q e st, in_blocks r -> cook shunt r (mkSt s q []) = Done (e, st) -> pb st = [].
Proof. intros. eapply cook_blocks_bound; eauto. Qed.
Print Assumptions C34_all_block_bound.

(** ** Blocks *)

(** A block with block anaphora, none of them in inner blocks. *)
Theorem C34_block : forall shunt bs body t s q e st,
  cook shunt (RLet bs body t) (mkSt s q []) = Done (e, st) ->
  Forall (fun b => no_inner_block (b_expr b)) bs -> no_inner_block body -> block_anaphora_in (RLet bs body t) <> [] ->
  exists bs' body' ps m,
    cook shunt (explicit_block block_name (RLet bs body t)) (mkSt s q []) = Done (ELet bs' body' t, st) /\ pb st = [] /\
    parameters block_name (block_anaphora_in (RLet bs body t)) m /\ documented m ps /\
    (e = ELam false ps (close_expr_vars ps 0 (ELet bs' body' t)) \/
     (** a block of one declaration that is just an anaphor: the declared name is the parameter *)
     exists k d a, bs' = [mkBinding k (EVar (Free (block_name a))) d] /\ ps = [block_name a] /\ e = ELam false [k] body').
Proof.
  intros shunt bs body t s q e st E N1 N2 NE. pose proof (cook_block_ok shunt bs body t s q N1 N2 NE) as H.
  destruct (cook shunt (explicit_block _ _) _) as [[e2 st2]| |]; try congruence. destruct H as (bs' & body' & m & -> & Pb & P & Q). rewrite Q in E.
  destruct (process_block m bs' body' t) as [e1| |] eqn:Ep; try discriminate E. cbn [obind] in E. injection E as <- <-.
  unfold process_block in Ep. pose proof (pattern_spec m (proj1 P)) as S. destruct (to_binding_pattern m) as [ps| |]; try discriminate Ep. cbn [obind] in Ep.
  exists bs', body', ps, m. split; auto. split; auto. split; auto. split; auto.
  destruct (forallb _ bs' && (List.length bs' =? 1) && (List.length ps =? 1)) eqn:B; injection Ep as <-; [right|left; reflexivity].
  apply andb_prop in B. destruct B as (B & L2). apply andb_prop in B. destruct B as (B & L1). apply Nat.eqb_eq in L1, L2.
  destruct bs' as [|[k v d] [|]]; try discriminate L1. cbn [forallb b_expr b_name map andb] in *. rewrite andb_true_r in B.
  destruct v as [[n|]| | |]; try discriminate B. apply existsb_exists in B. destruct B as (x & Hx & Ex). apply String.eqb_eq in Ex. subst x.
  apply in_map_iff in Hx. destruct Hx as ([a x] & Ex & Hx). cbn in Ex. subst x.
  assert (Ha : n = block_name a) by (apply P in Hx; tauto). subst n. exists k, d, a. split; auto. split; auto.
  destruct (documented_positions block_name (block_anaphora_in (RLet bs body t)) m ps) as (_ & _ & Pos); eauto using block_name_inj; [intros ? ? E; discriminate E|].
  destruct (Pos a) as (i & Ei). { apply P in Hx. tauto. }
  destruct ps as [|x [|]]; try discriminate L2. cbn [position] in Ei. destruct (String.eqb_spec x (block_name a)) as [->|N]; [reflexivity|discriminate Ei].
Qed.
Print Assumptions C34_block.

Theorem C34_block_positions : forall l m ps, parameters block_name l m -> documented m ps ->
  NoDup ps /\
  (forall n, In (Numbered n) l -> position ps (block_name (Numbered n)) = Some (Z.to_nat n)) /\
  (forall a b, In a l -> In b l -> earlier a b ->
     exists i j, position ps (block_name a) = Some i /\ position ps (block_name b) = Some j /\ i < j) /\
  (forall a, In a l -> exists i, position ps (block_name a) = Some i).
Proof.
  intros l m ps P D. split; [eapply documented_nodup|eapply documented_positions]; eauto using block_name_inj; intros a i E; discriminate E.
Qed.
Print Assumptions C34_block_positions.

(** The shortcut means the same as the function around the whole block, if the body of
    the block does not itself mention the anaphor and only for meanings in which the
    names of parameters do not matter and a declaration whose definition does not depend on the
    block is just a name for its value. *)
Theorem C34_block_alias : forall (I : interp) k d a body t rho env,
  (forall inl p q f, i_lam I inl [p] f = i_lam I inl [q] f) ->
  (forall inl p f g, (forall v, f [v] = g [v]) -> i_lam I inl [p] f = i_lam I inl [p] g) ->
  (forall t n v f, i_let I t [n] (fun _ => [v]) f = f [v]) ->
  not_free (block_name a) body ->
  den I rho env (ELam false [k] body) =
  den I rho env (ELam false [block_name a] (close_expr_vars [block_name a] 0 (ELet [mkBinding k (EVar (Free (block_name a))) d] body t))).
Proof.
  intros I k d a body t rho env H1 H1' H2 Nf. cbn [den]. rewrite (H1 false (block_name a) k). apply H1'. intros v.
  rewrite C05_close_meaning. cbn [den map b_expr b_name bind_names]. rewrite String.eqb_refl. cbn [hd]. rewrite H2.
  assert (G : forall e n env v, every_ref (fun _ w => match w with Free m => m <> block_name a | _ => True end) n e ->
    den I rho env e = den I (bind_names (i_dangling I) [block_name a] [v] rho) env e).
  { clear. induction e as [w|bs body t IHbs IHb|inl ps body IHb|kd xs IHxs] using expr_ind'; intros n env v H; cbn [den every_ref] in *.
    - destruct w as [m|s b nm]; auto. cbn [bind_names]. destruct (String.eqb_spec (block_name a) m); auto. congruence.
    - destruct H as (Hb & H). apply located_fold in Hb. apply i_let_ext; intros vs.
      + apply map_ext_in. intros b Hb'. rewrite Forall_forall in *. eapply IHbs; eauto.
      + eapply IHb; eauto.
    - apply i_lam_ext. intros vs. eapply IHb; eauto.
    - f_equal. apply located_fold in H. apply map_ext_in. intros x Hx. rewrite Forall_forall in *. eapply IHxs; eauto. }
  apply (G body 0). exact Nf.
Qed.
Print Assumptions C34_block_alias.

(** ** Where the documentation and the code part *)

(** A stand-in for the shunting yard, for the examples. *)
Definition row (ts : list expr) : outcome expr := Done (ENode KApp ts).
Definition plus (s : N) : raw := ROp s InfixLeft 75 (RVar (Free "+")).
Definition v (n : string) : raw := RVar (Free n).

(** A negative number in a string pattern, "{-1}", which the lexer lets through: a crash. *)
Theorem C34_negative_refuted : exists r, located r /\ cook_top row r = Panic.
Proof.
  exists (RSoup false [RExprAna (Numbered (-1)); plus 5; v "x"]). split; [|reflexivity].
  cbn. split; auto. constructor.
Qed.
Print Assumptions C34_negative_refuted.

(** The parameters made up for unused numbers have names that a program can use:
    in [_0 + _2 + _d1] the variable [_d1] becomes a reference to parameter 1. *)
Theorem C34_capture_refuted : exists r e, cook_top row r = Done e /\
  anaphora_in r = [Numbered 0; Numbered 2] /\
  e = ELam false ["_e_n0"; "_d1"; "_e_n2"]
        (ENode KApp [EVar (Bound 0 0 (Some "_e_n0")); ENode (KOperator InfixLeft 75) [EVar (Free "+")];
                     EVar (Bound 0 2 (Some "_e_n2")); ENode (KOperator InfixLeft 75) [EVar (Free "+")];
                     EVar (Bound 0 1 (Some "_d1"))]).
Proof.
  exists (RSoup false [RExprAna (Numbered 0); plus 5; RExprAna (Numbered 2); plus 6; v "_d1"]). eexists. split; [reflexivity|]. split; reflexivity.
Qed.
Print Assumptions C34_capture_refuted.

(** When the body of the block mentions the anaphor again, as [{k: •0}.(k + •0)] does, the
    shortcut leaves it behind as a free variable. *)
Theorem C34_block_alias_refuted : exists r e, in_blocks r /\ cook_top row r = Done e /\ ~ not_free (block_name (Numbered 0)) e.
Proof.
  exists (RLet [mkBinding "k" (RBlockAna (Numbered 0)) default_demand] (RSoup false [RVar (Bound 0 0 (Some "k")); plus 5; RBlockAna (Numbered 0)]) OtherLet).
  eexists. split; [exact I|]. split; [reflexivity|]. unfold not_free. cbn. intros H. decompose [and] H. congruence.
Qed.
Print Assumptions C34_block_alias_refuted.

(** The documentation has [{x: _ y: _}] as a block of two identity functions, but an
    anaphor that is a declaration all by itself is no soup.  Its variable stays free, and
    it becomes a parameter of the next function: [{x: _ y: _ + 1}] makes the anaphor of
    [x] a parameter of [y]. *)
Theorem C34_bare_refuted : exists r e, cook_top row r = Done e /\
  e = ELet [mkBinding "x" (EVar (Free "_e_a[3]")) default_demand;
            mkBinding "y" (ELam false ["_e_a[3]"; "_e_a[4]"]
              (ENode KApp [EVar (Bound 0 1 (Some "_e_a[4]")); ENode (KOperator InfixLeft 75) [EVar (Free "+")]; EVar (Free "one")])) default_demand]
        (EVar (Free "b")) OtherLet.
Proof.
  exists (RLet [mkBinding "x" (RExprAna (Anonymous 3)) default_demand;
                mkBinding "y" (RSoup false [RExprAna (Anonymous 4); plus 5; v "one"]) default_demand] (v "b") OtherLet).
  eexists. split; [reflexivity|]. reflexivity.
Qed.
Print Assumptions C34_bare_refuted.

(** Block anaphora are "scoped by the block that contains them", but an inner block's
    belong to the outer one if the outer one has one of its own before it, and otherwise
    not: [{a: • b: {c: •}}] is a function of two parameters, [{b: {c: •} a: •}] a function
    of one parameter with a function of one parameter inside. *)
Definition inner : raw := RLet [mkBinding "c" (RBlockAna (Anonymous 4)) default_demand] (RNode KList [RVar (Bound 0 0 (Some "c"))]) OtherLet.
Theorem C34_block_scope_refuted : exists body e1 e2 a b c,
  cook_top row (RLet [mkBinding "a" (RBlockAna (Anonymous 3)) default_demand; mkBinding "b" inner default_demand] body OtherLet) = Done (ELam false [a; b] e1) /\
  cook_top row (RLet [mkBinding "b" inner default_demand; mkBinding "a" (RBlockAna (Anonymous 5)) default_demand] body OtherLet) = Done (ELam false [c] e2).
Proof. exists (v "body"). do 5 eexists. split; reflexivity. Qed.
Print Assumptions C34_block_scope_refuted.

(** Numbers too large for the type of anaphor numbers are read as unnumbered anaphora. *)
Theorem C34_large_number_refuted : forall smid,
  to_explicit_anaphor smid [50; 49; 52; 55; 52; 56; 51; 54; 52; 56]%N = Anonymous smid.
Proof. reflexivity. Qed.
Print Assumptions C34_large_number_refuted.

(** A soup in square brackets is a list: between the separators each run of terms is one
    item, in order, and empty runs are not items. *)
Fixpoint separated (segs : list (list expr)) : list expr :=
  match segs with
  | [] => []
  | [s] => s
  | s :: segs => s ++ cat :: separated segs
  end.
Lemma split_seg : forall s rest cur, Forall (fun a => is_cat_operator a = false) s ->
  split_at_cat cur (s ++ rest) = split_at_cat (rev s ++ cur) rest.
Proof.
  induction s as [|a s IH]; intros rest cur F; [reflexivity|]. inversion F as [|? ? Fa Fs]; subst.
  cbn [app split_at_cat]. rewrite Fa, IH by assumption. cbn [rev]. now rewrite <- app_assoc.
Qed.
Lemma split_cur : forall cur rest, split_at_cat cur (cat :: rest) =
  match cur with [] => split_at_cat [] rest | _ => rev cur :: split_at_cat [] rest end.
Proof. reflexivity. Qed.
Theorem C34_list_items : forall shunt segs, Forall (Forall (fun a => is_cat_operator a = false)) segs ->
  assemble shunt true (separated segs) =
  obind (collect (map shunt (filter (fun s => negb (Nat.eqb (List.length s) 0)) segs))) (fun items => Done (ENode KList items)).
Proof.
  intros shunt segs F. unfold assemble. replace (split_at_cat [] (separated segs))
    with (filter (fun s : list expr => negb (Nat.eqb (List.length s) 0)) segs); [reflexivity|].
  induction segs as [|s segs IH]; [reflexivity|]. inversion F as [|? ? Fs F']; subst.
  cbn [filter separated]. rewrite IH by assumption.
  assert (forall l : list expr, l <> [] -> exists x r, rev l = x :: r) as R.
  { intros l NE. destruct (rev l) as [|x r] eqn:E; [|eauto]. apply (f_equal (@rev expr)) in E. rewrite rev_involutive in E. now subst. }
  destruct segs as [|t segs].
  - rewrite <- (app_nil_r s) at 3. rewrite split_seg by assumption. rewrite app_nil_r. destruct s as [|a s]; [reflexivity|].
    destruct (R (a :: s) ltac:(discriminate)) as (x & r & E). cbn [List.length Nat.eqb negb]. cbn [split_at_cat separated].
    rewrite E. rewrite <- E, rev_involutive. reflexivity.
  - rewrite split_seg by assumption. rewrite app_nil_r, split_cur. destruct s as [|a s]; [reflexivity|].
    destruct (R (a :: s) ltac:(discriminate)) as (x & r & E). rewrite E. rewrite <- E, rev_involutive. reflexivity.
Qed.
Print Assumptions C34_list_items.
Example C34_example_items : assemble (fun l => Done (ENode KErrPseudoCat l)) true
  (separated [[EVar (Free "x"); EVar (Free "f")]; []; [EVar (Free "y")]]) =
  Done (ENode KList [ENode KErrPseudoCat [EVar (Free "x"); EVar (Free "f")]; ENode KErrPseudoCat [EVar (Free "y")]]).
Proof. reflexivity. Qed.

(** All others are read as what they say. *)
Fixpoint digits_value (acc : Z) (s : list N) : Z :=
  match s with [] => acc | c :: s => digits_value (acc * 10 + Z.of_N (c - 48)) s end.
Theorem C34_numbers : forall smid s, s <> [] -> Forall (fun c => 48 <= c <= 57)%N s -> (digits_value 0 s <= 2147483647)%Z ->
  to_explicit_anaphor smid s = Numbered (digits_value 0 s).
Proof.
  intros smid s NE F L. unfold to_explicit_anaphor, number_str. destruct s as [|c s]; [congruence|].
  assert (G : forall s acc, (0 <= acc)%Z -> Forall (fun c => 48 <= c <= 57)%N s -> (digits_value acc s <= 2147483647)%Z -> parse_digits acc s = Some (digits_value acc s) /\ (acc <= digits_value acc s)%Z).
  { clear. induction s as [|c s IH]; intros acc P F L; cbn [digits_value parse_digits] in *; [split; auto; lia|].
    inversion F as [|? ? [C1 C2] F']; subst.
    destruct (N.leb_spec 48 c); [|lia]. destruct (N.leb_spec c 57); [|lia]. cbn [andb].
    destruct (Z.leb_spec (acc * 10 + Z.of_N (c - 48)) 2147483647) as [Q|Q].
    - destruct (IH (acc * 10 + Z.of_N (c - 48))%Z) as (A & B); auto; [lia|]. split; auto. lia.
    - exfalso. assert (M : forall s acc, (0 <= acc)%Z -> (acc <= digits_value acc s)%Z).
      { clear. induction s as [|c s IH]; intros acc P; cbn [digits_value]; [lia|]. specialize (IH (acc * 10 + Z.of_N (c - 48))%Z). lia. }
      specialize (M s (acc * 10 + Z.of_N (c - 48))%Z). lia. }
  destruct (G (c :: s) 0%Z) as (-> & _); auto; lia.
Qed.
Print Assumptions C34_numbers.

(** ** Examples *)

(** Twelve numbered anaphora with a hole: 10 comes after 9, not after 1. *)
Example C34_example_numbers : to_binding_pattern
  (map (fun n => (Numbered n, expr_name (Numbered n))) [10; 0; 9; 2; 11; 1; 4; 3; 5; 8; 7]%Z) =
  Done ["_e_n0"; "_e_n1"; "_e_n2"; "_e_n3"; "_e_n4"; "_e_n5"; "_d6"; "_e_n7"; "_e_n8"; "_e_n9"; "_e_n10"; "_e_n11"].
Proof. reflexivity. Qed.
(** [(_ + x) * _]: the conditions of the theorems are met, the inner soup has no function. *)
Definition sample : list raw := [RSoup false [RExprAna (Anonymous 9); plus 10; v "x"]; ROp 12 InfixLeft 80 (v "*"); RExprAna (Anonymous 13)].
Example C34_example_conditions : own_anaphora sample /\ located (RSoup false sample) /\ in_soups (RSoup false sample) /\
  anaphora_in (RSoup false sample) = [Anonymous 9; Anonymous 13].
Proof.
  split; [left; exists (Anonymous 13); cbn; auto|]. split; [cbn; repeat (split; try constructor)|]. split; [cbn; tauto|reflexivity].
Qed.
Example C34_example : exists body, cook_top row (RSoup false sample) = Done (ELam false ["_e_a[9]"; "_e_a[13]"] body).
Proof. eexists. reflexivity. Qed.
(** [(+ 3 -)]: two gaps. *)
Example C34_example_sections : exists body,
  cook_top row (RSoup false [plus 4; v "3"; ROp 7 InfixLeft 75 (v "-")]) = Done (ELam false ["_e_il[4]"; "_e_ir[7]"] body).
Proof. eexists. reflexivity. Qed.
(** [{a: •1 b: •0}] *)
Definition sample_block : raw :=
  RLet [mkBinding "a" (RBlockAna (Numbered 1)) default_demand; mkBinding "b" (RBlockAna (Numbered 0)) default_demand] (v "body") OtherLet.
Example C34_example_block : in_blocks sample_block /\ block_anaphora_in sample_block <> [] /\
  exists body, cook_top row sample_block = Done (ELam false ["_b_n0"; "_b_n1"] body).
Proof. split; [exact I|]. split; [discriminate|]. eexists. reflexivity. Qed.
(** A meaning as [C34_block_alias] wants it, in which functions are told apart. *)
Example C34_example_meaning : exists I : interp,
  (forall inl p q f, i_lam I inl [p] f = i_lam I inl [q] f) /\
  (forall inl p f g, (forall v, f [v] = g [v]) -> i_lam I inl [p] f = i_lam I inl [p] g) /\
  (forall t n v f, i_let I t [n] (fun _ => [v]) f = f [v]) /\
  (exists rho, den I rho [] (ELam false ["x"] (EVar (Bound 0 0 None))) <> den I rho [] (ELam false ["x"] (EVar (Free "y")))).
Proof.
  unshelve eexists (mkInterp nat (fun _ _ => 0) (fun _ ps f => match ps with [_] => f [7] | _ => 0 end) (fun _ _ f b => b (f [])) 0 _ _).
  - intros inl [|p [|]] f g H; auto.
  - intros t ns f g b c H1 H2. cbv beta. rewrite H1. apply H2.
  - split; [reflexivity|]. split; [intros inl p f g H; apply H|]. split; [reflexivity|]. exists (fun _ => 1). cbn. discriminate.
Qed.
