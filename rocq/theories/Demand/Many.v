(** Definitions used in more than one place are not marked as used at most once. *)
From Coq Require Import String List Bool Arith Lia Relations.
From Verif.Basics Require Import Model.
From Verif.Scope Require Import Model.
From Verif.Demand Require Import Model Spec Facts Exact Main.
Import ListNotations.
Open Scope nat_scope.

(** * Weights: 0 absent, 1 at most once, 2 many *)
Definition weight (m : env) (k : key) : nat := crank (d_card (get_or_absent m k)).
Lemma weight_bound m k : weight m k <= 2.
Proof. unfold weight. destruct (d_card _); cbn; lia. Qed.
Lemma weight_some m k : good m -> get m k <> None -> 1 <= weight m k.
Proof. intros H Hg. apply (get_or_absent_some m k H) in Hg. pose proof (absent_or_good m k H) as [F | ([F | F] & _)]; unfold weight; rewrite F in *; cbn; lia || congruence. Qed.
Lemma plus_weight a b : plain_demand a -> plain_demand b -> crank (d_card (plus a b)) = Nat.min 2 (crank (d_card a) + crank (d_card b)).
Proof. intros (A & _) (B & _). destruct a as [c s w r], b as [c' s' w' r']. cbn in *. destruct c, c'; cbn; congruence. Qed.
Lemma scale_weight a b : known a -> plain_demand b ->
  crank (d_card (scale a b)) = match crank (d_card b) with 0 => 0 | S _ => Nat.max (crank (d_card a)) (crank (d_card b)) end.
Proof. intros ([A | A] & _) (B & _); destruct a as [c s w r], b as [c' s' w' r']; cbn in *; subst; destruct c'; cbn; congruence. Qed.
Lemma add_weight m k d k' : good m -> known d -> weight (add m k d) k' = if key_eqb k k' then Nat.min 2 (weight m k' + crank (d_card d)) else weight m k'.
Proof.
  intros H Hd. induction H as [|[q e] m He H IH].
  - unfold weight, get_or_absent. cbn [add get]. destruct (key_eqb k k'); [| reflexivity]. rewrite plus_weight by (apply absent_plain || apply known_plain; exact Hd). reflexivity.
  - unfold weight, get_or_absent in *. cbn [add get]. destruct (key_eqb q k) eqn:E1; cbn [get].
    + apply key_eqb_spec in E1. subst. destruct (key_eqb k k'); [| reflexivity]. apply plus_weight; apply known_plain; assumption.
    + destruct (key_eqb q k') eqn:E2; [| exact IH]. destruct (key_eqb k k') eqn:E3; [| reflexivity]. apply key_eqb_spec in E2, E3. subst.
      rewrite (proj2 (key_eqb_spec _ _) eq_refl) in E1. discriminate.
Qed.
Lemma merge_weight b k : forall a, good a -> good b -> Nat.min 2 (weight a k + weight b k) <= weight (merge a b) k.
Proof.
  induction b as [|[q d] b IH]; intros a Ha Hb; [change (weight [] k) with 0; change (merge a []) with a; lia |].
  inversion Hb as [|? ? Hd Hb']; subst. cbn in Hd. change (merge a ((q, d) :: b)) with (merge (add a q d) b).
  specialize (IH (add a q d) (add_good _ _ _ Ha Hd) Hb'). rewrite add_weight in IH by assumption.
  assert (E : weight ((q, d) :: b) k = if key_eqb q k then crank (d_card d) else weight b k) by (unfold weight, get_or_absent; cbn [get]; destruct (key_eqb q k); reflexivity).
  rewrite E. destruct (key_eqb q k); [| exact IH]. lia.
Qed.
Lemma unshift_weight m s b : weight (unshift m) (s, b) = weight m (S s, b).
Proof. unfold weight, get_or_absent. rewrite get_unshift. reflexivity. Qed.
Lemma scaled_get m d k : get (scaled m d) k = option_map (fun x => scale x d) (get m k).
Proof. induction m as [|[q e] m IH]; cbn; [reflexivity |]. destruct (key_eqb q k); [reflexivity | exact IH]. Qed.
Lemma scaled_weight m d k : good m -> known d -> weight m k <= weight (scaled m d) k /\ (d_card d = CMulti -> 1 <= weight m k -> weight (scaled m d) k = 2).
Proof.
  intros H Hd. unfold weight, get_or_absent. rewrite scaled_get. destruct (get m k) as [x|] eqn:E; cbn [option_map].
  - pose proof (get_good _ _ _ H E) as Hx. rewrite scale_weight by (exact Hx || apply known_plain; exact Hd). destruct Hx as ([X | X] & _), Hd as ([D | D] & _); rewrite X, D; cbn; split; intros; lia || congruence.
  - cbn. split; [lia |]. intros _ F. lia.
Qed.

Fixpoint sum_of (l : list nat) : nat := match l with [] => 0 | x :: l => x + sum_of l end.
Lemma sum_one l : forall i x, nth_error l i = Some x -> x <= sum_of l.
Proof. induction l as [|a l IH]; intros [|i] x H; cbn in *; try discriminate; [injection H as ->; lia | specialize (IH i x H); lia]. Qed.
Lemma sum_two l : forall i j x y, i <> j -> nth_error l i = Some x -> nth_error l j = Some y -> x + y <= sum_of l.
Proof.
  induction l as [|a l IH]; intros [|i] [|j] x y Hn Hx Hy; cbn in *; try discriminate; try congruence.
  - injection Hx as ->. pose proof (sum_one l j y Hy). lia.
  - injection Hy as ->. pose proof (sum_one l i x Hx). lia.
  - assert (Hn' : i <> j) by congruence. specialize (IH i j x y Hn' Hx Hy). lia.
Qed.
Lemma gather_weight rs k : forall m, good m -> Forall (fun r => good (a_env r)) rs ->
  Nat.min 2 (weight m k + sum_of (map (fun r => weight (a_env r) k) rs)) <= weight (gather m rs) k.
Proof.
  induction rs as [|r rs IH]; intros m Hm H; [change (gather m []) with m; cbn [map sum_of]; lia |]. inversion H; subst. change (gather m (r :: rs)) with (gather (merge m (a_env r)) rs).
  specialize (IH (merge m (a_env r)) ltac:(apply merge_good; assumption) ltac:(assumption)).
  pose proof (merge_weight (a_env r) k m Hm ltac:(assumption)). cbn [map sum_of]. lia.
Qed.
(** What an argument adds. *)
Definition share (d : Basics.Model.demand) (w : nat) : nat :=
  match d_card d, w with CAbsent, _ | _, 0 => 0 | CMulti, _ => 2 | _, _ => w end.
Lemma with_arguments_weight rs k : forall m ds, good m -> Forall admissible ds -> Forall (fun r => good (a_env r)) rs ->
  weight m k <= weight (with_arguments m ds rs) k /\
  (forall i r, nth_error rs i = Some r -> Nat.min 2 (weight m k + share (nth i ds lazy_multi) (weight (a_env r) k)) <= weight (with_arguments m ds rs) k) /\
  (forall i r j r', i <> j -> nth_error rs i = Some r -> nth_error rs j = Some r' ->
    Nat.min 2 (share (nth i ds lazy_multi) (weight (a_env r) k) + share (nth j ds lazy_multi) (weight (a_env r') k)) <= weight (with_arguments m ds rs) k).
Proof.
  induction rs as [|r rs IH]; cbn [with_arguments]; intros m ds Hm Hd Hr.
  - split; [lia |]. split; intros [|]; discriminate.
  - inversion Hr as [|? ? Hr1 Hr2]; subst.
    assert (Hh : admissible (hd lazy_multi ds)) by (destruct Hd; [right; apply lazy_multi_known | assumption]).
    assert (Ht : Forall admissible (tl ds)) by (destruct Hd; [constructor | assumption]).
    assert (N : forall i, nth (S i) ds lazy_multi = nth i (tl ds) lazy_multi) by (intros i; destruct ds; [destruct i; reflexivity | reflexivity]).
    assert (N0 : nth 0 ds lazy_multi = hd lazy_multi ds) by (destruct ds; reflexivity).
    set (m' := if is_absent (d_card (hd lazy_multi ds)) then m else merge m (scaled (a_env r) (hd lazy_multi ds))).
    assert (W : good m' /\ Nat.min 2 (weight m k + share (hd lazy_multi ds) (weight (a_env r) k)) <= weight m' k).
    { unfold m', share. destruct Hh as [Hh | Hh].
      - rewrite Hh. cbn [is_absent]. split; [exact Hm | pose proof (weight_bound m k); lia].
      - destruct (scaled_weight (a_env r) (hd lazy_multi ds) k Hr1 Hh) as (S1 & S2). pose proof (scaled_good (a_env r) (hd lazy_multi ds) Hr1 Hh) as Sg.
        pose proof (merge_weight (scaled (a_env r) (hd lazy_multi ds)) k m Hm Sg) as MW. destruct Hh as ([Hc | Hc] & _); rewrite Hc in *; cbn [is_absent].
        + split; [apply merge_good; assumption |]. destruct (weight (a_env r) k); cbn [is_absent] in *; lia.
        + split; [apply merge_good; assumption |]. cbn [is_absent]. destruct (weight (a_env r) k) eqn:Ew; [lia |]. rewrite S2 in MW by (reflexivity || lia). lia. }
    destruct W as (Gm & W). destruct (IH m' (tl ds) Gm Ht Hr2) as (H1 & H2 & H3).
    assert (B : weight m k <= 2 /\ weight (with_arguments m' (tl ds) rs) k <= 2) by (split; apply weight_bound). split; [lia |]. split.
    + intros [|i] r0 Hi; cbn in Hi; [injection Hi as <-; rewrite N0; lia |]. rewrite N. specialize (H2 i r0 Hi). lia.
    + intros [|i] r0 [|j] r1 Hn Hi Hj; cbn in Hi, Hj; [congruence | | |].
      * injection Hi as <-. rewrite N0, N. specialize (H2 j r1 Hj). lia.
      * injection Hj as <-. rewrite N0, N. specialize (H2 i r0 Hi). lia.
      * rewrite !N. apply (H3 i r0 j r1); [congruence | exact Hi | exact Hj].
Qed.
Lemma outward_weight ds s b : forall m envs, good m -> Forall good envs -> List.length ds = List.length envs ->
  let o := fold_left (fun m x => if counts (fst x) then merge m (unshift (snd x)) else m) (combine ds envs) m in
  Nat.min 2 (weight m (s, b) + sum_of (map (fun x => if counts (fst x) then weight (snd x) (S s, b) else 0) (combine ds envs))) <= weight o (s, b).
Proof.
  induction ds as [|d ds IH]; intros m envs Hm He Hl; cbv zeta; [cbn [combine map sum_of fold_left]; lia |]. destruct envs as [|e envs]; [discriminate |].
  inversion He; subst. cbn [combine fold_left fst snd map sum_of]. cbv zeta in IH.
  destruct (counts d).
  - specialize (IH (merge m (unshift e)) envs ltac:(apply merge_good; [assumption | apply unshift_good; assumption]) ltac:(assumption) ltac:(cbn in Hl; lia)).
    pose proof (merge_weight (unshift e) (s, b) m Hm ltac:(apply unshift_good; assumption)) as MW. rewrite unshift_weight in MW. lia.
  - specialize (IH m envs Hm ltac:(assumption) ltac:(cbn in Hl; lia)). lia.
Qed.
(** Propagation. *)
Lemma demand_on_weight body envs ds i : good body -> Forall good envs -> (forall j, plain_demand (nth j ds demand_absent)) ->
  Nat.min 2 (weight body (0, i) + sum_of (map (fun j => match get (nth j envs []) (0, i) with
      | Some d => crank (d_card (scale d (nth j ds demand_absent))) | None => 0 end) (seq 0 (List.length envs))))
  <= crank (d_card (demand_on body envs ds i)).
Proof.
  intros Hb He Hd. unfold demand_on, weight.
  assert (P0 : plain_demand (get_or_absent body (0, i))) by (apply body_plain; exact Hb).
  revert P0. generalize (get_or_absent body (0, i)). generalize (seq 0 (List.length envs)) as js.
  induction js as [|j js IH]; intros d Hp; cbn [map sum_of fold_left]; [lia |].
  destruct (get (nth j envs []) (0, i)) as [x|] eqn:E; [| specialize (IH d Hp); lia].
  assert (Hx : known x) by (eapply env_known; [exact He | exact E]).
  assert (Ps : plain_demand (scale x (nth j ds demand_absent))) by (apply scale_plain; [exact Hx | apply Hd]).
  specialize (IH (plus d (scale x (nth j ds demand_absent))) ltac:(apply (plus_up d _ Hp Ps))). rewrite plus_weight in IH by assumption. lia.
Qed.
Lemma let_demands_raw body' body envs ds : good body -> Forall good envs -> let_demands body' body envs = Some ds ->
  exists raw, List.length raw = List.length envs /\ (forall i, plain_demand (nth i raw demand_absent)) /\
    (forall i, i < List.length envs -> crank (d_card (demand_on body envs raw i)) <= crank (d_card (nth i raw demand_absent))) /\
    (forall i, i < List.length envs -> crank (d_card (nth i raw demand_absent)) <= crank (d_card (nth i ds demand_absent))).
Proof.
  intros Hb He E. destruct (let_demands_spec body' body envs Hb He) as (ds' & E' & Ld & _). rewrite E in E'. injection E' as <-.
  unfold let_demands in E. destruct (all_some _) as [recs|] eqn:E1; [| discriminate]. destruct (settle _ (taint _) _ recs) as [t|] eqn:E2; [| discriminate].
  destruct (propagation_settles body envs Hb He (reached body envs)) as (raw & G1 & G2 & G3 & _ & _ & _ & G7).
  { apply re_body. }
  { intros j i Hj Hi Hr Hg. eapply re_step; [exact Hr | repeat split; assumption]. }
  rewrite G1 in E. exists raw. split; [exact G2 |]. split; [exact G3 |]. split; [intros i Hi; apply (G7 i Hi) |].
  assert (Er : List.length recs = List.length envs) by (apply all_some_forall2, forall2_length in E1; rewrite seq_length in E1; lia).
  assert (Et : List.length t = List.length envs).
  { destruct (taint_settles (dependencies (List.length envs) envs) recs) as (t' & T1 & T2 & _); [rewrite deps_length; exact Er |]. rewrite deps_length in T1, T2. rewrite T1 in E2. congruence. }
  assert (R : forall d, crank (d_card d) <= crank (d_card (rendered d))) by (intros [[] s w r]; cbn; lia).
  assert (M : forall a b d, crank (d_card d) <= crank (d_card (mark a b d))) by (intros a b [[] s w r]; destruct a; cbn; lia).
  intros i Hi. injection E as <-. set (ds1 := map _ (combine (combine t recs) raw)).
  assert (N1 : nth i ds1 demand_absent = mark (nth i t false) (nth i recs false) (nth i raw demand_absent)).
  { pose proof (map_nth (fun x => mark (fst (fst x)) (snd (fst x)) (snd x)) (combine (combine t recs) raw) ((false, false), demand_absent) i) as F.
    rewrite nth_combine3 with (envs := envs) in F by assumption. exact F. }
  destruct (is_block body').
  - change demand_absent with (rendered demand_absent) at 2. rewrite (map_nth rendered), N1. etransitivity; [apply M | apply R].
  - rewrite N1. apply M.
Qed.

(** * Annotations do not matter *)
Lemma needed_erase bs body i : needed bs body i -> forall bs' body', map erase_b bs' = map erase_b bs -> erase body' = erase body -> needed bs' body' i.
Proof.
  induction 1 as [bs body i Hi Hu | bs body j d i _ IH Hj Hi Hu]; intros bs' body' E1 E2.
  - apply nd_body; [apply (f_equal (@List.length _)) in E1; rewrite !map_length in E1; lia | eapply uses_erase; [exact Hu | exact E2]].
  - destruct (map_nth_error' erase_b bs bs' j d E1 Hj) as (d' & H1 & H2). unfold erase_b in H2. injection H2 as _ H2.
    eapply nd_definition; [apply IH; assumption | exact H1 | apply (f_equal (@List.length _)) in E1; rewrite !map_length in E1; lia | eapply uses_erase; [exact Hu | exact H2]].
Qed.
Lemma opaque_erase f f' : erase f' = erase f -> opaque f -> opaque f'.
Proof.
  destruct f as [| |? ? body|k ?], f' as [| |? ? body'|k' ?]; cbn; try discriminate; try tauto.
  - intros [= _ _ E] H Hs. apply H. eapply simple_erase; [symmetry; exact E | exact Hs].
  - intros [= -> _]. tauto.
Qed.
Ltac found H E := let d' := fresh "d" in let H1 := fresh "F" in let H2 := fresh "G" in
  destruct (map_nth_error' _ _ _ _ _ E H) as (d' & H1 & H2); try (unfold erase_b in H2; injection H2 as _ H2).
Lemma many_erase e s b : many e s b -> forall e', erase e' = erase e -> many e' s b.
Proof.
  induction 1 as [bs body t s b _ IH | bs body t i d s b Hn Hd _ IH | bs body t i d s b Hu Hn Hd Hv | bs body t i d j d' s b Hij Hn Hd Hu Hn' Hd' Hu'
    | i ps body s b _ IH | f xs s b _ IH | f xs i x s b Hx Hi _ IH | f xs i x s b Hf Hx Hi Hu | f xs i x j y s b Hij Hx Hi Hu Hy Hj Hv
    | f xs x s b Hf Hx Hu | k xs x s b Hk Hk' Hx _ IH | k xs i x j y s b Hk Hk' Hij Hx Hu Hy Hv]; intros e' E.
  1-4: destruct e' as [|bs' body' t'| |]; cbn in E; try discriminate; injection E as E1 E2 _.
  - apply my_body, IH. exact E2.
  - found Hd E1. eapply my_definition; [eapply needed_erase; eassumption | eassumption | apply IH; eassumption].
  - found Hd E1. eapply my_body_definition; [eapply uses_erase; [exact Hu | eassumption] | eapply needed_erase; eassumption | eassumption | eapply uses_erase; [exact Hv | eassumption]].
  - found Hd E1. found Hd' E1. eapply (my_definitions _ _ _ i _ j); [exact Hij | eapply needed_erase; [exact Hn | eassumption | eassumption] | eassumption | eapply uses_erase; [exact Hu | eassumption] | eapply needed_erase; [exact Hn' | eassumption | eassumption] | eassumption | eapply uses_erase; [exact Hu' | eassumption]].
  - destruct e' as [| |i' ps' body'|]; cbn in E; try discriminate. injection E as _ _ E. apply my_function, IH. exact E.
  - destruct e' as [| | |k' [|f' xs']]; cbn in E; try discriminate. injection E as -> E _. apply my_called, IH. exact E.
  - destruct e' as [| | |k' [|f' xs']]; cbn in E; try discriminate. injection E as -> E E2. found Hx E2.
    eapply my_argument; [eassumption | intros K; apply Hi; eapply ignores_erase; [symmetry; exact E | exact K] | apply IH; eassumption].
  - destruct e' as [| | |k' [|f' xs']]; cbn in E; try discriminate. injection E as -> E E2. found Hx E2.
    eapply my_called_argument; [eapply uses_erase; [exact Hf | eassumption] | eassumption | intros K; apply Hi; eapply ignores_erase; [symmetry; exact E | exact K] | eapply uses_erase; [exact Hu | eassumption]].
  - destruct e' as [| | |k' [|f' xs']]; cbn in E; try discriminate. injection E as -> E E2. found Hx E2. found Hy E2.
    eapply (my_arguments _ _ i _ j); [exact Hij | eassumption | intros K; apply Hi; eapply ignores_erase; [symmetry; exact E | exact K] | eapply uses_erase; [exact Hu | eassumption]
      | eassumption | intros K; apply Hj; eapply ignores_erase; [symmetry; exact E | exact K] | eapply uses_erase; [exact Hv | eassumption]].
  - destruct e' as [| | |k' [|f' xs']]; cbn in E; try discriminate. injection E as -> E E2. apply In_nth_error in Hx. destruct Hx as (i & Hx). found Hx E2.
    eapply my_opaque; [eapply opaque_erase; eassumption | eapply nth_error_In; eassumption | eapply uses_erase; [exact Hu | eassumption]].
  - destruct e' as [| | |k' xs']; cbn in E; try discriminate. injection E as -> E. apply In_nth_error in Hx. destruct Hx as (i & Hx). found Hx E.
    eapply my_part; [exact Hk | exact Hk' | eapply nth_error_In; eassumption | apply IH; eassumption].
  - destruct e' as [| | |k' xs']; cbn in E; try discriminate. injection E as -> E. found Hx E. found Hy E.
    eapply (my_parts _ _ i _ j); [exact Hk | exact Hk' | exact Hij | eassumption | eapply uses_erase; [exact Hu | eassumption] | eassumption | eapply uses_erase; [exact Hv | eassumption]].
Qed.
Lemma overused_erase bs body i : overused bs body i -> forall bs' body', map erase_b bs' = map erase_b bs -> erase body' = erase body -> overused bs' body' i.
Proof.
  intros H bs' body' E1 E2. assert (L : List.length bs' = List.length bs) by (apply (f_equal (@List.length _)) in E1; rewrite !map_length in E1; exact E1).
  induction H as [i Hi Hm | i j d Hi Hn Hd Hm | i j d Hi Hu Hn Hd Hv | i j d k d' Hi Hjk Hn Hd Hu Hn' Hd' Hu' | i j d Hi _ IH Hd Hu]; try rewrite <- L in Hi.
  - apply ov_body; [exact Hi | eapply many_erase; eassumption].
  - found Hd E1. eapply ov_definition; [exact Hi | eapply needed_erase; eassumption | eassumption | eapply many_erase; eassumption].
  - found Hd E1. eapply ov_body_definition; [exact Hi | eapply uses_erase; [exact Hu | eassumption] | eapply needed_erase; eassumption | eassumption | eapply uses_erase; [exact Hv | eassumption]].
  - found Hd E1. found Hd' E1. eapply (ov_definitions _ _ _ j _ k); [exact Hi | exact Hjk | eapply needed_erase; [exact Hn | eassumption | eassumption] | eassumption | eapply uses_erase; [exact Hu | eassumption] | eapply needed_erase; [exact Hn' | eassumption | eassumption] | eassumption | eapply uses_erase; [exact Hu' | eassumption]].
  - found Hd E1. eapply ov_through; [exact Hi | exact IH | eassumption | eapply uses_erase; eassumption].
Qed.

(** * The analysis *)
Section Main.
Variable intrinsics : table.
Hypothesis proper : Forall (fun e => Forall proper_entry (snd e)) intrinsics.
Notation analyse := (analyse intrinsics).

Definition many_signature (ds : list Basics.Model.demand) (body : expr) : Prop :=
  forall k d, nth_error ds k = Some d -> many body 0 k -> d_card d = CMulti.
Record plural (e : expr) (r : answer) (sig : option (list Basics.Model.demand)) : Prop := {
  p_right : right e r sig;
  p_many : forall s b, many e s b -> weight (a_env r) (s, b) = 2;
  p_lets : forall bs body t i b, part (ELet bs body t) (a_expr r) -> nth_error bs i = Some b -> overused bs body i -> d_card (b_demand b) = CMulti;
  p_sig : forall ps body, function (a_expr r) ps body -> exists ds, sig = Some ds /\ exact_signature ds ps body /\ many_signature ds body;
  p_table : forall bs body t b ps fbody, part (ELet bs body t) (a_expr r) -> In b bs -> function (b_expr b) ps fbody ->
    exists ds, In (b_name b, ds) (a_table r) /\ exact_signature ds ps fbody /\ many_signature ds fbody }.

Lemma two w : 2 <= w -> w <= 2 -> w = 2. Proof. lia. Qed.
Lemma all_plural {A} (f : A -> expr) l : Forall (fun x => exists r sig, analyse (f x) = Some (r, sig) /\ plural (f x) r sig) l ->
  exists rs, all_some (map (fun x => analyse (f x)) l) = Some rs /\ Forall2 (fun x p => plural (f x) (fst p) (snd p)) l rs.
Proof.
  induction 1 as [|x l (r & sig & E & Hr) _ (rs & E2 & IH)]; cbn; [exists []; auto |]. rewrite E, E2. exists ((r, sig) :: rs). split; [reflexivity | constructor; assumption].
Qed.
Lemma plural_rights {A} (f : A -> expr) l rs : Forall2 (fun x p => plural (f x) (fst p) (snd p)) l rs -> Forall2 (fun x p => right (f x) (fst p) (snd p)) l rs.
Proof. induction 1; constructor; auto. apply p_right. assumption. Qed.
Lemma uses_weight e r sig s b : right e r sig -> uses e s b -> 1 <= weight (a_env r) (s, b).
Proof. intros H Hu. apply weight_some; [apply (r_good _ _ _ H) | apply (r_uses _ _ _ H); exact Hu]. Qed.
Lemma opaque_demands f i : opaque f -> nth i (demands_of intrinsics f) lazy_multi = lazy_multi.
Proof.
  unfold demands_of. destruct f as [v|bs body t|inl ps body|k xs]; cbn; intros H; try (destruct i; reflexivity).
  - destruct (untouched body) eqn:E; [apply untouched_simple in E; contradiction | destruct i; reflexivity].
  - destruct k; try contradiction; destruct i; reflexivity.
Qed.

Lemma node_many k xs rs : composite k -> Forall2 (fun x p => plural x (fst p) (snd p)) xs rs ->
  forall s b, many (ENode k xs) s b -> 2 <= weight (match k, xs, map fst rs with
        | KApp, f :: _, r :: rs => with_arguments (a_env r) (demands_of intrinsics f) rs
        | KLookup _, _, r :: rs | KMeta, _, r :: rs => gather (a_env r) rs
        | _, _, _ => gather [] (map fst rs)
        end) (s, b).
Proof.
  intros Hk H s b Hm. pose proof (plural_rights (fun x => x) xs rs H) as HR.
  assert (G0 : Forall (fun r => good (a_env r)) (map fst rs)) by (clear -HR; induction HR; constructor; auto; apply (r_good _ _ _ H)).
  assert (S2 : k <> KApp -> 2 <= sum_of (map (fun r => weight (a_env r) (s, b)) (map fst rs))).
  { intros Hn. inversion Hm as [| | | | | | | | | | ? ? x ? ? _ _ Hx Hm' | ? ? i x j y ? ? _ _ Hij Hx Hu Hy Hv]; subst; try congruence.
    - apply In_nth_error in Hx. destruct Hx as (i & Hx). destruct (Forall2_nth _ _ _ H i x Hx) as (p & Hp & Hpl).
      rewrite <- (p_many _ _ _ Hpl s b Hm'). apply (sum_one _ i). rewrite map_map, nth_error_map, Hp. reflexivity.
    - destruct (Forall2_nth _ _ _ HR i x Hx) as (p & Hp & Hpl). destruct (Forall2_nth _ _ _ HR j y Hy) as (q & Hq & Hql).
      pose proof (uses_weight _ _ _ s b Hpl Hu). pose proof (uses_weight _ _ _ s b Hql Hv).
      pose proof (sum_two (map (fun r => weight (a_env r) (s, b)) (map fst rs)) i j (weight (a_env (fst p)) (s, b)) (weight (a_env (fst q)) (s, b)) Hij).
      rewrite map_map, !nth_error_map, Hp, Hq in H2. specialize (H2 eq_refl eq_refl). rewrite map_map. lia. }
  assert (P1 : k <> KApp -> 2 <= weight (gather [] (map fst rs)) (s, b)).
  { intros Hn. pose proof (gather_weight (map fst rs) (s, b) [] ltac:(constructor) G0). specialize (S2 Hn). lia. }
  assert (P2 : k <> KApp -> forall r rs', map fst rs = r :: rs' -> 2 <= weight (gather (a_env r) rs') (s, b)).
  { intros Hn r rs' E. specialize (S2 Hn). rewrite E in S2, G0. inversion G0; subst. cbn [map sum_of] in S2.
    pose proof (gather_weight rs' (s, b) (a_env r) ltac:(assumption) ltac:(assumption)). lia. }
  destruct k; try (exact (P1 ltac:(discriminate))); try contradiction.
  1, 2: destruct (map fst rs) as [|r rs'] eqn:E; [rewrite <- E in *; exact (P1 ltac:(discriminate)) | exact (P2 ltac:(discriminate) r rs' eq_refl)].
  clear P1 P2 S2. destruct H as [|f p xs rs Hf H]; [inversion Hm; subst; congruence |].
  cbn. cbn in G0. inversion G0 as [|? ? G1 G2]; subst. inversion HR as [|? ? ? ? Rf RR]; subst.
  destruct (with_arguments_weight (map fst rs) (s, b) (a_env (fst p)) (demands_of intrinsics f) G1 (demands_of_admissible intrinsics proper f) G2) as (W1 & W2 & W3).
  set (o := with_arguments _ _ _) in *.
  assert (A : forall i x, nth_error xs i = Some x -> ~ ignores f i -> exists r, nth_error (map fst rs) i = Some r /\
    (uses x s b -> 1 <= share (nth i (demands_of intrinsics f) lazy_multi) (weight (a_env r) (s, b))) /\
    (many x s b -> 2 <= share (nth i (demands_of intrinsics f) lazy_multi) (weight (a_env r) (s, b)))).
  { intros i x Hx Hi. destruct (Forall2_nth _ _ _ H i x Hx) as (q & Hq & Hpl). exists (fst q). split; [rewrite nth_error_map, Hq; reflexivity |].
    apply (demands_of_ignores intrinsics proper f i) in Hi. pose proof (p_right _ _ _ Hpl) as Hql. unfold share. split.
    - intros Hu. pose proof (uses_weight _ _ _ s b Hql Hu). destruct (d_card _), (weight (a_env (fst q)) (s, b)); congruence || lia.
    - intros Hu. rewrite (p_many _ _ _ Hpl s b Hu). destruct (d_card _); congruence || lia. }
  inversion Hm as [| | | | | ? ? ? ? Hm' | ? ? i x ? ? Hx Hi Hm' | ? ? i x ? ? Hu Hx Hi Hv | ? ? i x j y ? ? Hij Hx Hi Hu Hy Hj Hv | ? ? x ? ? Ho Hx Hu | |]; subst; try congruence.
  - rewrite (p_many _ _ _ Hf s b Hm') in W1. exact W1.
  - destruct (A i x Hx Hi) as (r & Hr & _ & A2). specialize (W2 i r Hr). specialize (A2 Hm'). lia.
  - destruct (A i x Hx Hi) as (r & Hr & A1 & _). specialize (W2 i r Hr). specialize (A1 Hv). pose proof (uses_weight _ _ _ s b Rf Hu). lia.
  - destruct (A i x Hx Hi) as (r & Hr & A1 & _). destruct (A j y Hy Hj) as (r' & Hr' & B1 & _). specialize (W3 i r j r' Hij Hr Hr'). specialize (A1 Hu). specialize (B1 Hv). lia.
  - apply In_nth_error in Hx. destruct Hx as (i & Hx). destruct (Forall2_nth _ _ _ H i x Hx) as (q & Hq & Hpl).
    specialize (W2 i (fst q) ltac:(rewrite nth_error_map, Hq; reflexivity)). rewrite (opaque_demands f i Ho) in W2. unfold share in W2. cbn [d_card lazy_multi] in W2.
    pose proof (uses_weight _ _ _ s b (p_right _ _ _ Hpl) Hu). destruct (weight (a_env (fst q)) (s, b)); lia.
Qed.
Lemma signature_many (ps : list string) body body' r sig : right body r sig -> (forall s b, many body s b -> weight (a_env r) (s, b) = 2) -> erase body' = erase body ->
  many_signature (signature (List.length ps) (a_env r)) body'.
Proof.
  intros Hr Hm E k d Hk Hu. assert (Hl : k < List.length ps) by (rewrite <- (signature_length (List.length ps) (a_env r)); apply nth_error_Some; congruence).
  apply (nth_some _ _ demand_absent) in Hk. rewrite signature_nth in Hk by exact Hl. subst. specialize (Hm 0 k (many_erase _ _ _ Hu body (eq_sym E))).
  unfold weight in Hm. destruct (d_card _); cbn in Hm; congruence.
Qed.

Lemma let_plural bs body t (rb : answer) (sb : option (list Basics.Model.demand)) rs : plural body rb sb ->
  Forall2 (fun b p => plural (b_expr b) (fst p) (snd p)) bs rs ->
  exists ds, let_demands (a_expr rb) (a_env rb) (map (fun r => a_env (fst r)) rs) = Some ds /\
    plural (ELet bs body t)
      (mkAnswer (ELet (map (fun x => mkBinding (b_name (fst (fst x))) (a_expr (fst (snd (fst x)))) (snd x)) (combine (combine bs rs) ds)) (a_expr rb) t)
        (outward (a_env rb) ds (map (fun r => a_env (fst r)) rs))
        (flat_map (fun x => named (b_name (fst x)) (snd (snd x))) (rev (combine bs rs)) ++ tables (map fst rs) ++ a_table rb)) None.
Proof.
  intros Pb P. pose proof (p_right _ _ _ Pb) as Hb. pose proof (plural_rights b_expr bs rs P) as H.
  destruct (let_right bs body t rb sb rs Hb H) as (ds & Eds & HR). exists ds. split; [exact Eds |].
  set (envs := map (fun r => a_env (fst r)) rs) in *.
  assert (Ge : Forall good envs) by (unfold envs; clear -H; induction H; constructor; auto; apply (r_good _ _ _ H)).
  assert (Ln : List.length bs = List.length rs) by (eapply forall2_length; exact H).
  assert (Le : List.length envs = List.length bs) by (unfold envs; rewrite map_length; lia).
  destruct (let_demands_spec (a_expr rb) (a_env rb) envs (r_good _ _ _ Hb) Ge) as (ds' & E' & Ld & _). rewrite Eds in E'. injection E' as <-. rewrite Le in Ld.
  destruct (let_demands_raw (a_expr rb) (a_env rb) envs ds (r_good _ _ _ Hb) Ge Eds) as (raw & Lr & Pr & Fx & Up). rewrite Le in Lr, Fx, Up.
  set (bs' := map (fun x => mkBinding (b_name (fst (fst x))) (a_expr (fst (snd (fst x)))) (snd x)) (combine (combine bs rs) ds)) in *.
  assert (Nb : forall i b' , nth_error bs' i = Some b' -> exists b p d, nth_error bs i = Some b /\ nth_error rs i = Some p /\ nth_error ds i = Some d /\
    plural (b_expr b) (fst p) (snd p) /\ b' = mkBinding (b_name b) (a_expr (fst p)) d).
  { intros i b' Hi. unfold bs' in Hi. rewrite nth_error_map in Hi. destruct (nth_error (combine (combine bs rs) ds) i) as [[[b p] d]|] eqn:Ec; [| discriminate].
    injection Hi as <-. exists b, p, d. clear -Ec P. revert i rs ds P Ec. induction bs as [|x bs IH]; intros i rs ds H Ec; [destruct i; discriminate |].
    inversion H as [|? q ? rs' Hq Hrs]; subst. destruct ds as [|d' ds]; [destruct i; discriminate |]. destruct i as [|i]; cbn in *; [injection Ec as -> -> ->; auto |]. exact (IH i rs' ds Hrs Ec). }
  pose proof (r_erase _ _ _ HR) as Ee. cbn [a_expr] in Ee. cbn in Ee. injection Ee as Ee1 Ee2.
  assert (Wb : forall i, (uses body 0 i -> 1 <= weight (a_env rb) (0, i)) /\ (many body 0 i -> 2 <= weight (a_env rb) (0, i))).
  { intros i. split; intros Hu; [eapply uses_weight; eassumption |]. rewrite (p_many _ _ _ Pb 0 i Hu). lia. }
  assert (We : forall j d s v, nth_error bs j = Some d -> (uses (b_expr d) s v -> 1 <= weight (nth j envs []) (s, v)) /\ (many (b_expr d) s v -> 2 <= weight (nth j envs []) (s, v))).
  { intros j d s v Hd. destruct (Forall2_nth _ _ _ P j d Hd) as (p & Hp & Hpl). unfold envs.
    rewrite (nth_some _ j [] (a_env (fst p))) by (rewrite nth_error_map, Hp; reflexivity). split; intros Hu; [eapply uses_weight; [apply (p_right _ _ _ Hpl) | exact Hu] |].
    rewrite (p_many _ _ _ Hpl s v Hu). lia. }
  (* contributions of definitions *)
  set (part_of := fun i j => match get (nth j envs []) (0, i) with Some d => crank (d_card (scale d (nth j raw demand_absent))) | None => 0 end).
  assert (Cn : forall i j, 1 <= crank (d_card (nth j raw demand_absent)) -> weight (nth j envs []) (0, i) <= part_of i j /\
    (1 <= weight (nth j envs []) (0, i) -> crank (d_card (nth j raw demand_absent)) <= part_of i j)).
  { intros i j Hj. unfold weight, get_or_absent, part_of. destruct (get (nth j envs []) (0, i)) as [x|] eqn:E; [| cbn; split; lia].
    rewrite scale_weight by (first [eapply env_known; [exact Ge | exact E] | apply Pr]). destruct (crank (d_card (nth j raw demand_absent))); [lia |]. split; lia. }
  assert (Tot : forall i, i < List.length bs -> Nat.min 2 (weight (a_env rb) (0, i) + sum_of (map (part_of i) (seq 0 (List.length bs)))) <= crank (d_card (nth i raw demand_absent))).
  { intros i Hi. etransitivity; [| apply Fx; exact Hi]. pose proof (demand_on_weight (a_env rb) envs raw i (r_good _ _ _ Hb) Ge Pr) as D. rewrite Le in D. exact D. }
  assert (One : forall i j, j < List.length bs -> nth_error (map (part_of i) (seq 0 (List.length bs))) j = Some (part_of i j)).
  { intros i j Hj. rewrite nth_error_map, nth_error_nth' with (d := 0) by (rewrite seq_length; exact Hj). rewrite seq_nth by exact Hj. reflexivity. }
  assert (Lt : forall j d, nth_error bs j = Some d -> j < List.length bs) by (intros j d Hd; apply nth_error_Some; congruence).
  assert (Nd : forall i, needed bs body i -> i < List.length bs /\ 1 <= crank (d_card (nth i raw demand_absent))).
  { assert (K : forall bs0 body0 k, needed bs0 body0 k -> bs0 = bs -> body0 = body -> k < List.length bs /\ 1 <= crank (d_card (nth k raw demand_absent))).
    { induction 1 as [bs0 body0 k Hk Hu | bs0 body0 j d k _ IH Hj Hk Hu]; intros -> ->; (split; [exact Hk |]).
      - pose proof (Tot k Hk). pose proof (proj1 (Wb k) Hu). lia.
      - destruct (IH eq_refl eq_refl) as (Hjl & Hj1). pose proof (Tot k Hk). pose proof (proj1 (We j d 0 k Hj) Hu). destruct (Cn k j Hj1) as (C1 & _). pose proof (sum_one _ j _ (One k j Hjl)). lia. }
    intros i Hn. eapply K; eauto. }
  assert (Ov : forall i, overused bs body i -> crank (d_card (nth i raw demand_absent)) = 2).
  { intros i Ho. assert (B : crank (d_card (nth i raw demand_absent)) <= 2) by (destruct (d_card _); cbn; lia). apply two; [| exact B]. clear B.
    induction Ho as [i Hi Hm | i j d Hi Hn Hd Hm | i j d Hi Hu Hn Hd Hv | i j d k d' Hi Hjk Hn Hd Hu Hn' Hd' Hu' | i j d Hi Ho IH Hd Hu]; pose proof (Tot i Hi) as T.
    - pose proof (proj2 (Wb i) Hm). lia.
    - destruct (Nd j Hn) as (Hj & Hj1). destruct (Cn i j Hj1) as (C1 & _). pose proof (sum_one _ j _ (One i j Hj)). pose proof (proj2 (We j d 0 i Hd) Hm). lia.
    - destruct (Nd j Hn) as (Hj & Hj1). destruct (Cn i j Hj1) as (C1 & _). pose proof (sum_one _ j _ (One i j Hj)). pose proof (proj1 (We j d 0 i Hd) Hv). pose proof (proj1 (Wb i) Hu). lia.
    - destruct (Nd j Hn) as (Hj & Hj1). destruct (Cn i j Hj1) as (C1 & _). destruct (Nd k Hn') as (Hk & Hk1). destruct (Cn i k Hk1) as (D1 & _).
      pose proof (sum_two _ j k _ _ Hjk (One i j Hj) (One i k Hk)). pose proof (proj1 (We j d 0 i Hd) Hu). pose proof (proj1 (We k d' 0 i Hd') Hu'). lia.
    - destruct (Cn i j ltac:(lia)) as (_ & C2). pose proof (sum_one _ j _ (One i j (Lt j d Hd))). specialize (C2 (proj1 (We j d 0 i Hd) Hu)). lia. }
  assert (Hds : forall i d, nth_error ds i = Some d -> nth i ds demand_absent = d) by (intros i d Hi; apply nth_some; exact Hi).
  constructor.
  - exact HR.
  - intros s v Hm. cbn [a_env]. apply two; [| apply weight_bound].
    pose proof (outward_weight ds s v (unshift (a_env rb)) envs (unshift_good _ (r_good _ _ _ Hb)) Ge ltac:(lia)) as O. cbv zeta in O.
    change (fold_left (fun m x => if counts (fst x) then merge m (unshift (snd x)) else m) (combine ds envs) (unshift (a_env rb))) with (outward (a_env rb) ds envs) in O. rewrite unshift_weight in O.
    assert (Cd : forall j, needed bs body j -> nth_error (map (fun x => if counts (fst x) then weight (snd x) (S s, v) else 0) (combine ds envs)) j = Some (weight (nth j envs []) (S s, v))).
    { intros j Hn. destruct (Nd j Hn) as (Hj & Hj1). pose proof (Up j Hj) as U. rewrite nth_error_map.
      rewrite nth_error_nth' with (d := (demand_absent, [] : env)) by (rewrite combine_length; lia). rewrite combine_nth by lia. cbn [option_map fst snd].
      replace (counts (nth j ds demand_absent)) with true; [reflexivity |]. unfold counts. destruct (d_card (nth j ds demand_absent)); cbn in U; lia || reflexivity. }
    inversion Hm as [? ? ? ? ? Hm' | ? ? ? i d ? ? Hn Hd Hm' | ? ? ? i d ? ? Hu Hn Hd Hv | ? ? ? i d j d' ? ? Hij Hn Hd Hu Hn' Hd' Hu' | | | | | | | |]; subst.
    + rewrite (p_many _ _ _ Pb _ _ Hm') in O. lia.
    + pose proof (sum_one _ _ _ (Cd i Hn)). pose proof (proj2 (We i d (S s) v Hd) Hm'). lia.
    + pose proof (sum_one _ _ _ (Cd i Hn)). pose proof (proj1 (We i d (S s) v Hd) Hv). pose proof (uses_weight _ _ _ _ _ Hb Hu). lia.
    + pose proof (sum_two _ _ _ _ _ Hij (Cd i Hn) (Cd j Hn')). pose proof (proj1 (We i d (S s) v Hd) Hu). pose proof (proj1 (We j d' (S s) v Hd') Hu'). lia.
  - cbn [a_expr]. intros bs0 body0 t0 i b0 Hp Hi Ho. inversion Hp as [| ? ? ? ? Hp' | ? ? b' ? ? Hin Hp' | | ]; subst.
    + destruct (Nb i b0 Hi) as (b & p & d & H1 & H2 & H3 & Hr & ->). cbn.
      assert (Ho' : overused bs body i) by (eapply overused_erase; [exact Ho | symmetry; exact Ee1 | symmetry; exact Ee2]).
      pose proof (Up i (Lt i b H1)) as U. rewrite (Ov i Ho'), (Hds i d H3) in U. destruct (d_card d); cbn in U; lia || reflexivity.
    + exact (p_lets _ _ _ Pb _ _ _ i b0 Hp' Hi Ho).
    + apply In_nth_error in Hin. destruct Hin as (j & Hj). destruct (Nb j b' Hj) as (b & p & d & H1 & H2 & H3 & Hr & ->). exact (p_lets _ _ _ Hr _ _ _ i b0 Hp' Hi Ho).
  - cbn [a_expr]. intros ps fb Hf. inversion Hf.
  - cbn [a_expr a_table]. intros bs0 body0 t0 b0 ps fb Hp Hin Hf. inversion Hp as [| ? ? ? ? Hp' | ? ? b' ? ? Hin' Hp' | | ]; subst.
    + apply In_nth_error in Hin. destruct Hin as (i & Hi). destruct (Nb i b0 Hi) as (b & p & d & H1 & H2 & H3 & Hr & ->). cbn [b_expr b_name] in *.
      destruct (p_sig _ _ _ Hr ps fb Hf) as (sg & Es & S1). exists sg. split; [| exact S1]. apply in_or_app. left. apply in_flat_map. exists (b, p). split.
      * rewrite <- in_rev. clear -H1 H2. revert rs i H1 H2. induction bs as [|x bs IH]; intros [|q rs] [|i] H1 H2; cbn in *; try discriminate; [injection H1 as ->; injection H2 as ->; auto | right; eauto].
      * cbn. rewrite Es. left. reflexivity.
    + destruct (p_table _ _ _ Pb _ _ _ b0 ps fb Hp' Hin Hf) as (sg & S1 & S2). exists sg. split; [| exact S2]. apply in_or_app. right. apply in_or_app. right. exact S1.
    + apply In_nth_error in Hin'. destruct Hin' as (i & Hi). destruct (Nb i b' Hi) as (b & p & d & H1 & H2 & H3 & Hr & ->). cbn [b_expr b_name] in *.
      destruct (p_table _ _ _ Hr _ _ _ b0 ps fb Hp' Hin Hf) as (sg & S1 & S2). exists sg. split; [| exact S2]. apply in_or_app. right. apply in_or_app. left.
      apply tables_in. exists (fst p). split; [| exact S1]. apply in_map. eapply nth_error_In. exact H2.
Qed.

Theorem analyse_plural e : exists r sig, analyse e = Some (r, sig) /\ plural e r sig.
Proof.
  induction e as [v|bs body t Hbs (rb & sb & Eb & Hb)|i ps body (rb & sb & Eb & Hb)|k xs Hxs] using expr_nested.
  - destruct (analyse_right intrinsics proper (EVar v)) as (r & sig & E & Hr). exists r, sig. split; [exact E |]. cbn in E. injection E as <- <-.
    constructor; [exact Hr | | | |].
    + intros s b Hm. inversion Hm.
    + intros bs body t j b Hp. inversion Hp.
    + intros ps body Hf. inversion Hf.
    + intros bs body t b ps fb Hp. inversion Hp.
  - destruct (all_plural b_expr bs Hbs) as (rs & Ers & Hrs). destruct (let_plural bs body t rb sb rs Hb Hrs) as (ds & Ed & Hr).
    cbn. rewrite Eb, Ers, Ed. eexists _, _. split; [reflexivity | exact Hr].
  - destruct (analyse_right intrinsics proper (ELam i ps body)) as (r & sig & E & Hr). exists r, sig. split; [exact E |]. cbn in E. rewrite Eb in E. injection E as <- <-.
    constructor; [exact Hr | | | |]; cbn [a_expr a_env a_table].
    + intros s b Hm. rewrite unshift_weight. apply (p_many _ _ _ Hb). inversion Hm; subst. assumption.
    + intros bs0 body0 t0 j b Hp. inversion Hp; subst. eapply (p_lets _ _ _ Hb). eassumption.
    + intros ps0 body0 Hf. inversion Hf; subst. eexists. split; [reflexivity |]. split.
      * apply signature_exact; [apply (r_good _ _ _ (p_right _ _ _ Hb)) |]. intros s b. rewrite (r_uses _ _ _ (p_right _ _ _ Hb)). apply uses_same. symmetry. apply (r_erase _ _ _ (p_right _ _ _ Hb)).
      * eapply signature_many; [apply (p_right _ _ _ Hb) | apply (p_many _ _ _ Hb) | apply (r_erase _ _ _ (p_right _ _ _ Hb))].
    + intros bs0 body0 t0 b ps0 fb Hp. inversion Hp; subst. eapply (p_table _ _ _ Hb). eassumption.
  - destruct (analyse_right intrinsics proper (ENode k xs)) as (r & sig & E & Hr). exists r, sig. split; [exact E |]. cbn [Model.analyse] in E.
    destruct (untouched (ENode k xs)) eqn:Eu.
    + injection E as <- <-. assert (Hn : ~ composite k) by (intros F; apply not_untouched with (xs := xs) in F; congruence).
      constructor; [exact Hr | | | |]; cbn [a_expr a_env a_table].
      * intros s b Hm. inversion Hm; subst; exfalso; apply Hn; assumption || exact Logic.I.
      * intros ? ? ? ? ? Hp. inversion Hp; contradiction.
      * intros ps fb Hf. inversion Hf; subst. exfalso. apply Hn. exact Logic.I.
      * intros ? ? ? ? ? ? Hp. inversion Hp; contradiction.
    + assert (Hk : composite k) by (eapply not_untouched; exact Eu). destruct (all_plural (fun x => x) xs Hxs) as (rs & Ers & Hrs).
      change (map analyse xs) with (map (fun x => analyse x) xs) in E. rewrite Ers in E. injection E as <- <-.
      constructor; [exact Hr | | | |]; cbn [a_expr a_env a_table].
      * intros s b Hm. apply two; [| apply weight_bound]. apply (node_many k xs rs Hk Hrs s b Hm).
      * intros bs0 body0 t0 j b Hp Hj Ho. apply part_let_node in Hp; [| eauto]. destruct Hp as (x & _ & Hx & Hp). rewrite map_map in Hx. apply in_map_iff in Hx. destruct Hx as (p & <- & Hin).
        apply In_nth_error in Hin. destruct Hin as (l & Hl). destruct (Forall2_nth' _ _ _ Hrs l p Hl) as (y & _ & Hy). exact (p_lets _ _ _ Hy _ _ _ j b Hp Hj Ho).
      * clear Hr Eu Ers Hxs. destruct Hrs as [|x p xs' rs' Hx Hxs]; intros ps fb Hf; inversion Hf as [| e0 xs0 ps0 fb0 Hf']; subst. cbn.
        exact (p_sig _ _ _ Hx ps fb Hf').
      * intros bs0 body0 t0 b ps fb Hp Hb Hf. apply part_let_node in Hp; [| eauto]. destruct Hp as (x & _ & Hx & Hp). rewrite map_map in Hx. apply in_map_iff in Hx. destruct Hx as (p & <- & Hin).
        pose proof Hin as Hin0. apply In_nth_error in Hin. destruct Hin as (l & Hl). destruct (Forall2_nth' _ _ _ Hrs l p Hl) as (y & _ & Hy). destruct (p_table _ _ _ Hy _ _ _ b ps fb Hp Hb Hf) as (sg & S1 & S2).
        exists sg. split; [| exact S2]. apply tables_in. exists (fst p). split; [apply in_map; exact Hin0 | exact S1].
Qed.
End Main.
