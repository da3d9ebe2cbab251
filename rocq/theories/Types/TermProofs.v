(** The checker answers for all closed types: unfolding reaches finitely many types. *)
From Coq Require Import Ascii String List Bool Arith Lia.
From Verif.Types Require Import Model Spec Basics RuleProofs SimProofs.
Import ListNotations.
Open Scope string_scope.
Open Scope list_scope.
Open Scope nat_scope.

(** ** Sizes *)
Fixpoint size (t : type) : nat :=
  match t with
  | TApp f x => S (size f + size x)
  | TTuple l => S (list_sum (map size l))
  | TPrefix l a => S (list_sum (map size l) + size a)
  | TRecord f _ _ => S (list_sum (map (fun kp => size (pty (snd kp))) f))
  | TFun a b => S (size a + size b)
  | TUnion l => S (list_sum (map size l))
  | TMu _ b | TForall _ b | TLam _ b => S (size b)
  | _ => 1
  end.
Lemma list_sum_In {A} (f : A -> nat) l a : In a l -> f a <= list_sum (map f l).
Proof. induction l as [|b l IH]; cbn; [contradiction|]. intros [->|H]; [lia|]. specialize (IH H). unfold list_sum in *. lia. Qed.
Lemma parts_smaller t u : is_mu t = false -> In u (parts t) -> size u < size t.
Proof.
  intros M. destruct t as [| | | | |f x|l|l a|f o r|a b|l| | | |x b| |]; cbn [parts size]; try contradiction; try discriminate.
  - destruct f as [| | | |n|f y| | | | | | | | | | |]; try contradiction; [intros [<-|[]]; cbn; lia|].
    destruct f; try contradiction. cbn. intros [<-|[<-|[]]]; lia.
  - intros H. apply (list_sum_In size) in H. lia.
  - intros H. apply in_app_or in H as [H|[<-|[]]]; [apply (list_sum_In size) in H|]; lia.
  - intros H. apply in_map_iff in H. destruct H as [kp [<- H]]. apply (list_sum_In (fun kp => size (pty (snd kp)))) in H. lia.
  - intros [<-|[<-|[]]]; lia.
  - intros H. apply (list_sum_In size) in H. lia.
Qed.

(** ** A rule that has no answer lacks one for smaller types *)
Definition below (s t a b : type) : Prop :=
  (In a (s :: t :: parts s ++ parts t) /\ In b (s :: t :: parts s ++ parts t)) /\ size a + size b < size s + size t.
Lemma below_both s t a b : is_mu s = false -> is_mu t = false -> In a (parts s) -> In b (parts t) -> below s t a b.
Proof.
  intros Ms Mt Ha Hb. split; [split; right; right; apply in_or_app; auto|].
  apply parts_smaller in Ha, Hb; auto. lia.
Qed.
Lemma below_swap s t a b : is_mu s = false -> is_mu t = false -> In a (parts s) -> In b (parts t) -> below s t b a.
Proof.
  intros Ms Mt Ha Hb. split; [split; right; right; apply in_or_app; auto|].
  apply parts_smaller in Ha, Hb; auto. lia.
Qed.
Lemma below_left s t a : is_mu s = false -> In a (parts s) -> below s t a t.
Proof.
  intros Ms Ha. split; [split; [right; right; apply in_or_app; auto|right; now left]|]. apply parts_smaller in Ha; auto. lia.
Qed.
Lemma below_right s t b : is_mu t = false -> In b (parts t) -> below s t s b.
Proof.
  intros Ms Ha. split; [split; [now left|right; right; apply in_or_app; auto]|]. apply parts_smaller in Ha; auto. lia.
Qed.
Lemma matches_prefix_none (sub : type -> type -> option bool) es p a : matches_prefix sub es p a = None ->
  exists s t, In s es /\ In t (p ++ [a]) /\ sub s t = None.
Proof.
  unfold matches_prefix. destruct (_ <=? _); [|discriminate]. intros H. apply andm_none in H as [H|H]; apply allm_none, Exists_exists in H.
  - destruct H as [[s t] [Hin H]]. exists s, t. repeat split; [now apply in_combine_l in Hin|apply in_or_app; left; now apply in_combine_r in Hin|exact H].
  - destruct H as [s [Hin H]]. exists s, a. repeat split; [|apply in_or_app; right; now left|exact H].
    rewrite <- (firstn_skipn (length p) es). apply in_or_app. now right.
Qed.

Lemma rules_none sub s t : closed s -> closed t -> is_mu s = false -> is_mu t = false -> rules sub s t = None ->
  exists a b, below s t a b /\ sub a b = None.
Proof.
  intros Gs Gt Ms Mt H.
  assert (UL : forall ss, s = TUnion ss -> allm (fun v => sub v t) ss = None -> exists a b, below s t a b /\ sub a b = None).
  { intros ss -> A. apply allm_none, Exists_exists in A. destruct A as [a [Hin A]]. exists a, t. split; [now apply below_left|exact A]. }
  assert (UR : forall ts, t = TUnion ts -> anym (fun v => sub s v) ts = None -> exists a b, below s t a b /\ sub a b = None).
  { intros ss -> A. apply anym_none, Exists_exists in A. destruct A as [a [Hin A]]. exists s, a. split; [now apply below_right|exact A]. }
  assert (BB : forall a b, In a (parts s) -> In b (parts t) -> sub a b = None -> exists a b, below s t a b /\ sub a b = None).
  { intros a b Ha Hb E. exists a, b. split; [now apply below_both|exact E]. }
  assert (BA : forall l b, (forall a, In a l -> In a (parts s)) -> In b (parts t) -> allm (fun a => sub a b) l = None ->
    exists a b, below s t a b /\ sub a b = None).
  { intros l b Hl Hb E. apply allm_none, Exists_exists in E. destruct E as [a [Hin E]]. apply (BB a b); auto. }
  destruct s as [bs| | | |cs|fs xs|ls|ps as_|sf so sr|a b|ss|ls|ls|vs ks|ms bs|qs bs|zs bs]; try discriminate;
  destruct t as [bt| | | |ct|ft xt|lt|pt at_|tf t_open tr|c d|ts|lt|lt|vt kt|mt bt|qt bt|zt bt]; try discriminate;
  cbn [rules] in H; try discriminate;
  try (now apply (UR _ eq_refl)); try (now apply (UL _ eq_refl)).
  all: try (destruct ps as [|? ?]; [cbn in Gs; discriminate|]); try (destruct pt as [|? ?]; [cbn in Gt; discriminate|]).
  all: try discriminate; try (now apply (UR _ eq_refl)); try (now apply (UL _ eq_refl)).
  all: try (destruct bt; discriminate).
  - unfold app_subtype in H.
    set (u := TApp fs xs) in *. set (w := TApp ft xt) in *.
    assert (S : match as_single u with
      | Some (sn, si) => match as_single w with
          | Some (tn, ti) => if String.eqb sn tn then if covariant sn then sub si ti else Some (type_eqb si ti)
              else if String.eqb sn "NonEmpty" && String.eqb tn "List" then sub si ti else Some (type_eqb u w)
          | None => Some (type_eqb u w) end
      | None => Some (type_eqb u w) end = None -> exists a b, below u w a b /\ sub a b = None).
    { clear H. destruct (as_single u) as [[sn si]|] eqn:Es; [|discriminate]. destruct (as_single w) as [[tn ti]|] eqn:Et; [|discriminate].
      apply as_single_some in Es, Et.
      assert (sub si ti = None -> exists a b, below u w a b /\ sub a b = None).
      { apply BB; [rewrite Es|rewrite Et]; now left. }
      destruct (String.eqb sn tn); [destruct (covariant sn); [auto|discriminate]|]. destruct (_ && _); [auto|discriminate]. }
    destruct (as_two u) as [[[sn sa] sb]|] eqn:Es; [|auto]. destruct (as_two w) as [[[tn ta] tb]|] eqn:Et; [|auto].
    destruct (_ || _ || _); [|auto]. clear S. apply as_two_some in Es, Et. apply andm_none in H as [H|H].
    + apply (BB sa ta); [rewrite Es|rewrite Et|exact H]; now left.
    + apply (BB sb tb); [rewrite Es|rewrite Et|exact H]; now right; left.
  - destruct (arg_of "NonEmpty" _) as [u|] eqn:E; [|discriminate]. apply arg_of_some in E. injection E as -> ->.
    destruct pt; [|discriminate]. apply andm_none in H as [H|H].
    + apply (BB u t); [now left|now left|exact H]. + apply (BB u at_); [now left|now right; left|exact H].
  - destruct (arg_of "Dict" _); discriminate.
  - destruct (arg_of "List" _) as [u|] eqn:E.
    + apply arg_of_some in E. injection E as -> ->. apply (BA ls u); auto. now left.
    + destruct (arg_of "NonEmpty" _) as [u|] eqn:E'; [|discriminate]. apply arg_of_some in E'. injection E' as -> ->.
      destruct (nonempty ls); [|discriminate]. apply (BA ls u); auto. now left.
  - destruct (length ls =? length lt); [|discriminate]. apply allm_none, Exists_exists in H. destruct H as [[a b] [Hin H]].
    apply (BB a b); [now apply in_combine_l in Hin|now apply in_combine_r in Hin|exact H].
  - apply matches_prefix_none in H. destruct H as (a & b & Ha & Hb & H). now apply (BB a b).
  - destruct (arg_of "List" _) as [u|] eqn:E; [|discriminate]. apply arg_of_some in E. injection E as -> ->.
    apply andm_none in H as [H|H].
    + apply (BA (t :: ps) u); auto; [intros x Hx; cbn [parts]; apply in_or_app; auto|now left].
    + apply (BB as_ u); [cbn [parts]; apply in_or_app; right; now left|now left|exact H].
  - apply andm_none in H as [H|H].
    + apply matches_prefix_none in H. destruct H as (x & y & Hx & Hy & H). apply (BB x y); [cbn [parts]; apply in_or_app; auto|exact Hy|exact H].
    + apply (BB as_ at_); [| |exact H]; cbn [parts]; apply in_or_app; right; now left.
  - destruct (arg_of "Dict" _) as [u|] eqn:E; [|discriminate]. apply arg_of_some in E. injection E as -> ->.
    destruct (_ || _); [discriminate|]. apply allm_none, Exists_exists in H. destruct H as [[k p] [Hin H]].
    apply (BB (pty p) u); [apply in_map_iff; now exists (k, p)|now left|exact H].
  - unfold record_subtype in H. destruct (allm _ tf) as [[]|] eqn:E; try discriminate.
    apply allm_none, Exists_exists in E. destruct E as [[k p] [Hin E]]. cbn in E. destruct p as [u|u].
    + destruct (get k sf) as [[v|v]|] eqn:G; try discriminate. apply get_In in G.
      apply (BB v u); [apply in_map_iff; now exists (k, Required v)|apply in_map_iff; now exists (k, Required u)|exact E].
    + destruct (get k sf) as [p|] eqn:G; try discriminate. apply get_In in G.
      apply (BB (pty p) u); [apply in_map_iff; now exists (k, p)|apply in_map_iff; now exists (k, Optional u)|exact E].
  - apply andm_none in H as [H|H].
    + exists c, a. split; [apply below_swap; auto; now left|exact H].
    + apply (BB b d); [now right; left|now right; left|exact H].
Qed.

(** ** A finite set closed under taking parts *)
Section Closed.
Variable C : list type.
Hypothesis C_closed : forall t, In t C -> closed t.
Hypothesis C_parts : forall t u, In t C -> In u (parts t) -> In u C.

Definition largest : nat := list_max (map size C).
Lemma size_largest t : In t C -> size t <= largest.
Proof.
  intros H. unfold largest. pose proof (proj1 (list_max_le (map size C) (list_max (map size C))) (le_n _)) as F.
  rewrite Forall_forall in F. apply F, in_map, H.
Qed.
Definition left_over (A : list (type * type)) : nat :=
  length (filter (fun p => negb (assumes A (fst p) (snd p))) (list_prod C C)).
Lemma filter_le {X} (f g : X -> bool) l : (forall x, g x = true -> f x = true) -> length (filter g l) <= length (filter f l).
Proof.
  intros H. induction l as [|x l IH]; cbn; [lia|]. destruct (g x) eqn:G; [rewrite (H x G); cbn; lia|]. destruct (f x); cbn; lia.
Qed.
Lemma filter_lt {X} (f g : X -> bool) l x : (forall x, g x = true -> f x = true) -> In x l -> f x = true -> g x = false ->
  length (filter g l) < length (filter f l).
Proof.
  intros H. induction l as [|y l IH]; cbn; [contradiction|]. intros [->|Hin] Fx Gx.
  - rewrite Fx, Gx. cbn. pose proof (filter_le f g l H). lia.
  - specialize (IH Hin Fx Gx). destruct (g y) eqn:G; [rewrite (H y G); cbn; lia|]. destruct (f y); cbn; lia.
Qed.
Lemma left_over_less s t A : In s C -> In t C -> assumes A s t = false -> left_over ((s, t) :: A) < left_over A.
Proof.
  intros Hs Ht E. apply (filter_lt _ _ _ (s, t)).
  - intros [a b] H. cbn [fst snd] in *. unfold assumes in *. cbn [existsb] in H. rewrite negb_true_iff in *. now apply orb_false_iff in H.
  - now apply in_prod.
  - cbn. now rewrite E.
  - cbn. now rewrite !type_eqb_refl.
Qed.

Lemma subtype_answers fuel : forall s t A, In s C -> In t C ->
  left_over A * S (2 * largest) + size s + size t < fuel -> subtype fuel s t A <> None.
Proof.
  induction fuel as [|fuel IH]; intros s t A Hs Ht L; [lia|]. cbn [subtype]. rewrite !beta_ground by auto. cbn [bind].
  destruct (type_eqb s t); [discriminate|]. destruct (assumes A s t) eqn:EA; [discriminate|].
  assert (U : forall a b, In a C -> In b C -> subtype fuel a b ((s, t) :: A) <> None).
  { intros a b Ha Hb. apply IH; auto. pose proof (left_over_less s t A Hs Ht EA). pose proof (size_largest a Ha). pose proof (size_largest b Hb). nia. }
  destruct (is_mu s) eqn:Ms; [|destruct (is_mu t) eqn:Mt].
  - destruct s; try discriminate. apply U; auto. apply (C_parts (TMu x s)); [assumption|now left].
  - destruct t; try discriminate.
    assert (V : subtype fuel s (unfold_mu x t (TMu x t)) ((s, TMu x t) :: A) <> None).
    { apply U; auto. apply (C_parts (TMu x t)); [assumption|now left]. }
    destruct s; try discriminate; exact V.
  - assert (V : rules (fun s t => subtype fuel s t A) s t <> None).
    { intros E. apply rules_none in E; auto. destruct E as (a & b & ((Ha & Hb) & Hl) & E). revert E.
      assert (I : forall x, In x (s :: t :: parts s ++ parts t) -> In x C).
      { intros x [<-|[<-|H]]; auto. apply in_app_or in H as [H|H]; eauto. }
      apply IH; auto. lia. }
    destruct s, t; try discriminate; exact V.
Qed.
End Closed.

(** ** The types reached by unfolding *)
Fixpoint inst (r : list (string * type)) (t : type) : type :=
  match t with
  | TVar y _ => match get y r with Some u => u | None => t end
  | TMu y b => TMu y (inst (remove y r) b)
  | TApp f a => TApp (inst r f) (inst r a)
  | TTuple l => TTuple (map (inst r) l)
  | TPrefix p a => TPrefix (map (inst r) p) (inst r a)
  | TFun a b => TFun (inst r a) (inst r b)
  | TRecord f o rs => TRecord (map (fun kp => (fst kp, map_presence (inst r) (snd kp))) f) o rs
  | TUnion l => TUnion (map (inst r) l)
  | t => t
  end.
Fixpoint reach (r : list (string * type)) (t : type) : list type :=
  inst r t ::
  match t with
  | TMu y b => reach ((y, inst r t) :: r) b
  | TApp f a => reach r f ++ reach r a
  | TTuple l => flat_map (reach r) l
  | TPrefix p a => flat_map (reach r) p ++ reach r a
  | TFun a b => reach r a ++ reach r b
  | TRecord f _ _ => flat_map (fun kp => reach r (pty (snd kp))) f
  | TUnion l => flat_map (reach r) l
  | _ => []
  end.
Lemma reach_head r t : In (inst r t) (reach r t).
Proof. destruct t; now left. Qed.

Lemma get_remove_same {A} x (r : list (string * A)) : get x (filter (fun p => negb (String.eqb (fst p) x)) r) = None.
Proof.
  induction r as [|[y v] r IH]; cbn; [reflexivity|]. destruct (String.eqb y x) eqn:E; cbn; [exact IH|].
  rewrite String.eqb_sym, E. exact IH.
Qed.
Lemma get_remove_other {A} x y (r : list (string * A)) : x <> y -> get y (filter (fun p => negb (String.eqb (fst p) x)) r) = get y r.
Proof.
  intros N. induction r as [|[z v] r IH]; cbn; [reflexivity|]. destruct (String.eqb z x) eqn:E; cbn.
  - apply String.eqb_eq in E. subst. destruct (String.eqb y x) eqn:E; [apply String.eqb_eq in E; congruence|exact IH].
  - now rewrite IH.
Qed.
Lemma remove_twice x r : remove x (remove x r) = remove x r.
Proof. unfold remove. induction r as [|[y v] r IH]; cbn; [reflexivity|]. destruct (String.eqb y x) eqn:E; cbn; [exact IH|]. rewrite E. cbn. now rewrite IH. Qed.
Lemma remove_comm x y r : remove x (remove y r) = remove y (remove x r).
Proof.
  unfold remove. induction r as [|[z v] r IH]; cbn; [reflexivity|].
  destruct (String.eqb z y) eqn:E1, (String.eqb z x) eqn:E2; cbn; rewrite ?E1, ?E2; cbn; rewrite ?IH; reflexivity.
Qed.
Definition closed_env (r : list (string * type)) : Prop := forall x u, In (x, u) r -> closed u.
Lemma closed_env_remove x r : closed_env r -> closed_env (remove x r).
Proof. intros H y u Hin. apply filter_In in Hin. exact (H y u (proj1 Hin)). Qed.

Lemma unfold_inst x u : closed u -> forall t r B, closed_env r -> ground B t = true ->
  unfold_mu x (inst (remove x r) t) u = inst ((x, u) :: r) t.
Proof.
  intros Gu. induction t using type_induction; intros r' B Hr G; cbn [ground inst unfold_mu] in *; auto; try discriminate.
  - rewrite !andb_true_iff in G. destruct G as [[Gf Ga] _]. now rewrite (IHt1 _ B), (IHt2 _ B).
  - f_equal. rewrite map_map. apply map_ext_in. rewrite Forall_forall in H. intros a Ha. apply (H a Ha _ B); auto. exact (forallb_In _ _ G _ Ha).
  - rewrite !andb_true_iff in G. destruct G as [[Gn Gl] Ga]. rewrite prefix_list_nonempty by now rewrite !nonempty_map.
    rewrite (IHt _ B) by assumption. f_equal.
    rewrite map_map. apply map_ext_in. rewrite Forall_forall in H. intros a Hin. apply (H a Hin _ B); auto. exact (forallb_In _ _ Gl _ Hin).
  - rewrite andb_true_iff in G. destruct G as [G _]. f_equal. rewrite map_map. apply map_ext_in. rewrite Forall_forall in H.
    intros [k p] Hin. cbn. f_equal. specialize (H _ Hin r' B Hr (forallb_In _ _ G _ Hin)). cbn in H. destruct p; cbn in *; now rewrite H.
  - rewrite !andb_true_iff in G. destruct G as [Gf Ga]. now rewrite (IHt1 _ B), (IHt2 _ B).
  - f_equal. rewrite map_map. apply map_ext_in. rewrite Forall_forall in H. intros a Ha. apply (H a Ha _ B); auto. exact (forallb_In _ _ G _ Ha).
  - cbn [get]. destruct (String.eqb x0 x) eqn:E.
    + apply String.eqb_eq in E. subst. unfold remove. rewrite get_remove_same. cbn. now rewrite String.eqb_refl.
    + unfold remove. rewrite get_remove_other by (intros ->; rewrite String.eqb_refl in E; discriminate).
      destruct (get x0 r') as [w|] eqn:Eg; [|cbn; now rewrite E].
      apply get_In in Eg. assert (Gw : closed w) by exact (Hr _ _ Eg).
      apply (unfold_fresh w []); [exact Gw|]. apply (ground_occurs w []); [exact Gw|intros []].
  - destruct (String.eqb x0 x) eqn:E.
    + apply String.eqb_eq in E. subst. rewrite remove_twice. f_equal. unfold remove at 2. cbn. rewrite String.eqb_refl. reflexivity.
    + f_equal. rewrite remove_comm. rewrite (IHt _ (x0 :: B)); [|now apply closed_env_remove|exact G].
      unfold remove at 2. cbn. rewrite String.eqb_sym, E. reflexivity.
Qed.
Lemma ground_inst t : forall r B B', closed_env r -> (forall y, In y B -> In y (map fst r) \/ In y B') -> ground B t = true -> ground B' (inst r t) = true.
Proof.
  induction t using type_induction; intros r' B B' Hr I G; cbn [ground inst] in *; auto; try discriminate.
  - rewrite !andb_true_iff in *. destruct G as [[Gf Ga] Gs]. rewrite (IHt1 r' B B' Hr I Gf), (IHt2 r' B B' Hr I Ga). repeat split.
    destruct t1; try discriminate; reflexivity.
  - rewrite forallb_map. revert G. apply forallb_mono. rewrite Forall_forall in *. intros a Ha. apply (H a Ha r' B B' Hr I).
  - rewrite !andb_true_iff in *. destruct G as [[Gn Gl] Ga]. rewrite nonempty_map. repeat split; [exact Gn| |exact (IHt r' B B' Hr I Ga)].
    rewrite forallb_map. revert Gl. apply forallb_mono. rewrite Forall_forall in *. intros a Ha'. apply (H a Ha' r' B B' Hr I).
  - rewrite !andb_true_iff in *. destruct G as [G Gr]. split; [|exact Gr]. rewrite forallb_map. revert G. apply forallb_mono.
    rewrite Forall_forall in *. intros a Ha. cbn. rewrite pty_map. apply (H a Ha r' B B' Hr I).
  - rewrite !andb_true_iff in *. destruct G as [Ga Gb]. split; [exact (IHt1 r' B B' Hr I Ga)|exact (IHt2 r' B B' Hr I Gb)].
  - rewrite forallb_map. revert G. apply forallb_mono. rewrite Forall_forall in *. intros a Ha. apply (H a Ha r' B B' Hr I).
  - apply mem_In in G. destruct (get x r') as [w|] eqn:E.
    + apply get_In in E. apply (ground_weaken w []); [intros y []|exact (Hr _ _ E)].
    + cbn. apply mem_In. destruct (I x G) as [Hin|]; [|assumption]. exfalso. clear -Hin E.
      induction r' as [|[y v] r' IH]; [contradiction|]. cbn in *. destruct (String.eqb x y) eqn:Ey; [discriminate|].
      destruct Hin as [->|Hin]; [rewrite String.eqb_refl in Ey; discriminate|auto].
  - apply (IHt (remove x r') (x :: B)); [now apply closed_env_remove| |exact G]. intros y [->|Hy]; [right; now left|].
    destruct (String.eqb y x) eqn:Ey; [apply String.eqb_eq in Ey; right; now left|].
    destruct (I y Hy) as [Hin|]; [left|right; now right]. apply in_map_iff in Hin. destruct Hin as [[z v] [<- Hin]].
    apply in_map_iff. exists (z, v). split; [reflexivity|]. apply filter_In. cbn in *. now rewrite Ey.
Qed.

Section Reach.
Variable T : list type.
Lemma reach_parts t : forall r, closed_env r -> ground (map fst r) t = true ->
  (forall u, In u (reach r t) -> In u T) ->
  (forall x u, In (x, u) r -> In u T /\ forall p, In p (parts u) -> In p T) ->
  forall u, In u (reach r t) -> closed u /\ forall p, In p (parts u) -> In p T.
Proof.
  assert (HL : forall r l, Forall (fun t => forall r, closed_env r -> ground (map fst r) t = true ->
      (forall u, In u (reach r t) -> In u T) ->
      (forall x u, In (x, u) r -> In u T /\ forall p, In p (parts u) -> In p T) ->
      forall u, In u (reach r t) -> closed u /\ forall p, In p (parts u) -> In p T) l ->
    closed_env r -> forallb (ground (map fst r)) l = true -> (forall u, In u (flat_map (reach r) l) -> In u T) ->
    (forall x u, In (x, u) r -> In u T /\ forall p, In p (parts u) -> In p T) ->
    forall u, In u (flat_map (reach r) l) -> closed u /\ forall p, In p (parts u) -> In p T).
  { intros r l F Hr G HT HE u Hu. apply in_flat_map in Hu. destruct Hu as [a [Ha Hu]]. rewrite Forall_forall in F.
    apply (F a Ha r Hr (forallb_In _ _ G _ Ha)); auto. intros w Hw. apply HT, in_flat_map. eauto. }
  induction t using type_induction; intros r' Hr G HT HE u Hu;
    assert (Gi : closed (inst r' _)) by (apply (ground_inst _ r' (map fst r') []); [exact Hr|auto|exact G]);
    cbn [reach] in Hu, HT; destruct Hu as [<-|Hu]; try contradiction;
    try (split; [exact Gi|]; cbn [inst parts]; contradiction).
  all: try (cbn [ground] in G; discriminate).
  (* applications *)
  - split; [exact Gi|]. cbn [inst]. cbn [ground] in G. rewrite !andb_true_iff in G. destruct G as [[Gf Ga] Gs].
    destruct t1 as [| | | |n|f y| | | | | | | | | | |]; try discriminate; cbn [inst parts].
    + intros p [<-|[]]. apply HT. right. apply in_or_app. right. apply reach_head.
    + destruct f as [| | | |n|? ?| | | | | | | |z ?| | |]; cbn [inst]; try contradiction.
      * intros p [<-|[<-|[]]]; apply HT; right; apply in_or_app; [left|right; apply reach_head].
        cbn [reach]. right. apply in_or_app. right. apply reach_head.
      * cbn in Gf. rewrite !andb_true_iff in Gf. destruct Gf as [_ Gf]. discriminate.
  - cbn [ground] in G. rewrite !andb_true_iff in G. destruct G as [[Gf Ga] Gs]. apply in_app_or in Hu as [Hu|Hu].
    + apply (IHt1 r'); auto. intros w Hw. apply HT. right. apply in_or_app. auto.
    + apply (IHt2 r'); auto. intros w Hw. apply HT. right. apply in_or_app. auto.
  - split; [exact Gi|]. cbn [inst parts]. intros p Hp. apply in_map_iff in Hp. destruct Hp as [a [<- Ha]]. apply HT. right.
    apply in_flat_map. exists a. split; [exact Ha|apply reach_head].
  - apply (HL r' l H Hr G); auto. intros w Hw. apply HT. now right.
  - split; [exact Gi|]. cbn [inst parts]. intros p Hp. apply in_app_or in Hp as [Hp|[<-|[]]].
    + apply in_map_iff in Hp. destruct Hp as [a [<- Ha]]. apply HT. right. apply in_or_app. left.
      apply in_flat_map. exists a. split; [exact Ha|apply reach_head].
    + apply HT. right. apply in_or_app. right. apply reach_head.
  - cbn [ground] in G. rewrite !andb_true_iff in G. destruct G as [[Gn Gl] Ga]. apply in_app_or in Hu as [Hu|Hu].
    + apply (HL r' l); auto. intros w Hw. apply HT. right. apply in_or_app. auto.
    + apply (IHt r'); auto. intros w Hw. apply HT. right. apply in_or_app. auto.
  - split; [exact Gi|]. cbn [inst parts]. intros p Hp. rewrite map_map in Hp. apply in_map_iff in Hp. destruct Hp as [[k a] [<- Ha]].
    apply HT. right. apply in_flat_map. exists (k, a). split; [exact Ha|]. cbn. rewrite pty_map. apply reach_head.
  - cbn [ground] in G. rewrite andb_true_iff in G. destruct G as [G _]. apply in_flat_map in Hu. destruct Hu as [a [Ha Hu]].
    rewrite Forall_forall in H. apply (H a Ha r' Hr (forallb_In _ _ G _ Ha)); auto.
    intros w Hw. apply HT. right. apply in_flat_map. eauto.
  - split; [exact Gi|]. cbn [inst parts]. intros p [<-|[<-|[]]]; apply HT; right; apply in_or_app; [left|right]; apply reach_head.
  - cbn [ground] in G. rewrite !andb_true_iff in G. destruct G as [Gf Ga]. apply in_app_or in Hu as [Hu|Hu].
    + apply (IHt1 r'); auto. intros w Hw. apply HT. right. apply in_or_app. auto.
    + apply (IHt2 r'); auto. intros w Hw. apply HT. right. apply in_or_app. auto.
  - split; [exact Gi|]. cbn [inst parts]. intros p Hp. apply in_map_iff in Hp. destruct Hp as [a [<- Ha]]. apply HT. right.
    apply in_flat_map. exists a. split; [exact Ha|apply reach_head].
  - apply (HL r' l H Hr G); auto. intros w Hw. apply HT. now right.
  - split; [exact Gi|]. cbn [inst]. destruct (get x r') as [w|] eqn:E; [|contradiction]. apply get_In in E. apply (HE _ _ E).
  - split; [exact Gi|]. cbn [inst parts]. intros p [<-|[]].
    assert (E : unfold_mu x (inst (remove x r') t) (inst r' (TMu x t)) = inst ((x, inst r' (TMu x t)) :: r') t).
    { apply (unfold_inst x _ Gi t r' (x :: map fst r')); auto. }
    cbn [inst] in E. rewrite E. apply HT. right. apply reach_head.
  - assert (P : forall p, In p (parts (inst r' (TMu x t))) -> In p T).
    { cbn [inst parts]. intros p [<-|[]].
      assert (E : unfold_mu x (inst (remove x r') t) (inst r' (TMu x t)) = inst ((x, inst r' (TMu x t)) :: r') t).
      { apply (unfold_inst x _ Gi t r' (x :: map fst r')); auto. }
      cbn [inst] in E. rewrite E. apply HT. right. apply reach_head. }
    apply (IHt ((x, inst r' (TMu x t)) :: r')); [|exact G|intros w Hw; apply HT; now right| |exact Hu].
    + intros y w [Ey|Hy]; [injection Ey as <- <-; exact Gi|exact (Hr y w Hy)].
    + intros y w [Ey|Hy]; [injection Ey as <- <-; split; [apply HT; now left|exact P]|exact (HE y w Hy)].
Qed.
End Reach.

Lemma inst_nil t : forall B, ground B t = true -> inst [] t = t.
Proof.
  induction t using type_induction; intros B G; cbn [ground inst] in *; auto.
  - rewrite !andb_true_iff in G. destruct G as [[Gf Ga] _]. now rewrite (IHt1 B), (IHt2 B).
  - f_equal. apply map_id_In. rewrite Forall_forall in H. intros a Ha. apply (H a Ha B). exact (forallb_In _ _ G _ Ha).
  - rewrite !andb_true_iff in G. destruct G as [[Gn Gl] Ga]. rewrite (IHt B) by assumption. f_equal.
    apply map_id_In. rewrite Forall_forall in H. intros a Hin. apply (H a Hin B). exact (forallb_In _ _ Gl _ Hin).
  - rewrite andb_true_iff in G. destruct G as [G _]. f_equal. apply map_id_In. rewrite Forall_forall in H. intros [k p] Hin.
    specialize (H _ Hin B (forallb_In _ _ G _ Hin)). cbn in *. destruct p; cbn in *; now rewrite H.
  - rewrite !andb_true_iff in G. destruct G as [Gf Ga]. now rewrite (IHt1 B), (IHt2 B).
  - f_equal. apply map_id_In. rewrite Forall_forall in H. intros a Ha. apply (H a Ha B). exact (forallb_In _ _ G _ Ha).
  - f_equal. now apply (IHt (x :: B)).
Qed.
Lemma reach_nil t : closed t -> In t (reach [] t).
Proof. intros G. pose proof (reach_head [] t) as H. now rewrite (inst_nil t []) in H. Qed.

Theorem subtype_terminates s t : closed s -> closed t -> exists fuel b, is_subtype fuel s t = Some b.
Proof.
  intros Gs Gt. set (C := reach [] s ++ reach [] t).
  assert (P : forall a, In a C -> closed a /\ forall p, In p (parts a) -> In p C).
  { intros a Ha. apply in_app_or in Ha as [Ha|Ha].
    - apply (reach_parts C s []); auto; [intros x u []|intros u Hu; apply in_or_app; auto|intros x u []].
    - apply (reach_parts C t []); auto; [intros x u []|intros u Hu; apply in_or_app; auto|intros x u []]. }
  assert (A : forall fuel, left_over C [] * S (2 * largest C) + size s + size t < fuel -> subtype fuel s t [] <> None).
  { intros fuel. apply subtype_answers; try (intros; now apply P); [intros a u Ha Hu; now apply (P a)| |]; apply in_or_app; [left|right]; now apply reach_nil. }
  specialize (A _ (Nat.lt_succ_diag_r _)). unfold is_subtype. destruct (subtype _ s t []) as [b|] eqn:E; [eauto|contradiction].
Qed.

Theorem related_accepted s t : closed s -> closed t -> related s t -> accepted s t.
Proof.
  intros Gs Gt (R & HR & H). destruct (subtype_terminates s t Gs Gt) as (fuel & [] & E); [now exists fuel|].
  exfalso. exact (related_not_rejected R s t fuel [] HR Gs Gt H E).
Qed.
