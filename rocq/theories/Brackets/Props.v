(** * Highlights of bracket pairs *)
From Coq Require Import List Bool Arith NArith Lia.
From Verif.Lsp Require Import Model Spec Places.
From Verif.Brackets Require Import Model Spec.
Import ListNotations.

Lemma source_app a b : source (a ++ b) = source a ++ source b.
Proof. apply flat_map_app. Qed.

Lemma token_found t a cursor : forall b start before,
  start + bytes (source b) <= cursor < start + bytes (source b) + bytes (l_text t) ->
  token_at cursor start before (b ++ t :: a) = Some t.
Proof.
  induction b as [|u b IH]; intros start before H; cbn [app token_at source flat_map bytes] in *.
  - rewrite (proj2 (Nat.leb_le start cursor)), (proj2 (Nat.ltb_lt cursor (start + bytes (l_text t)))) by lia. reflexivity.
  - fold (source b) in H. rewrite bytes_app in H. rewrite (proj2 (Nat.ltb_ge cursor (start + bytes (l_text u)))) by lia.
    rewrite andb_false_r. apply IH. lia.
Qed.

Lemma last_none n k ts : (forall t, In t ts -> child_of n t && is_kind k t = false) ->
  forall start found, last_of n k start found ts = found.
Proof.
  induction ts as [|t ts IH]; intros H start found; cbn [last_of]; auto.
  rewrite (H t (or_introl eq_refl)). apply IH. intros u U. apply H. right. exact U.
Qed.
Lemma last_app n k a b : forall start found,
  last_of n k start found (a ++ b) = last_of n k (start + bytes (source a)) (last_of n k start found a) b.
Proof.
  induction a as [|t a IH]; intros start found; cbn [app last_of source flat_map bytes]; [f_equal; lia|].
  rewrite IH. f_equal. fold (source a). rewrite bytes_app. lia.
Qed.
Lemma last_one n k x t y : (forall u, In u (x ++ y) -> child_of n u && is_kind k u = false) ->
  child_of n t && is_kind k t = true ->
  last_of n k 0 None (x ++ t :: y) = Some (bytes (source x), bytes (source x ++ l_text t)).
Proof.
  intros H T. rewrite last_app, (last_none n k x) by (intros u U; apply H, in_or_app; auto). cbn [last_of].
  rewrite T, (last_none n k y) by (intros u U; apply H, in_or_app; auto). rewrite bytes_app. reflexivity.
Qed.
Lemma range_covers before part after :
  ranges (before ++ part ++ after) (Some (bytes before, bytes (before ++ part))) = [covers before part].
Proof.
  cbn [ranges]. rewrite to_position_place. rewrite (app_assoc before part after) at 1. rewrite to_position_place. reflexivity.
Qed.
Lemma plain_not n k t : (l_parent t = Some n -> l_kind t = Plain) -> child_of n t && is_kind k t = false.
Proof.
  unfold child_of, is_kind. destruct (l_parent t) as [m|]; auto. destruct (Nat.eqb m n) eqn:E; auto.
  apply Nat.eqb_eq in E. subst. intros H. rewrite H by reflexivity. destruct k; reflexivity.
Qed.
Lemma pair_ranges n ts x o y c z : Spec.pair n ts x o y c z ->
  ranges (source ts) (last_of n Open 0 None ts) ++ ranges (source ts) (last_of n Close 0 None ts) =
  [covers (source x) (l_text o); covers (source (x ++ o :: y)) (l_text c)].
Proof.
  intros (-> & Ko & Kc & Po & Pc & H).
  assert (Co : child_of n o = true) by (unfold child_of; rewrite Po; apply Nat.eqb_refl).
  assert (Cc : child_of n c = true) by (unfold child_of; rewrite Pc; apply Nat.eqb_refl).
  rewrite (last_one n Open x o (y ++ c :: z)).
  - replace (x ++ o :: y ++ c :: z) with ((x ++ o :: y) ++ c :: z) by (rewrite <- app_assoc; reflexivity).
    rewrite (last_one n Close (x ++ o :: y) c z).
    + assert (E1 : source ((x ++ o :: y) ++ c :: z) = source x ++ l_text o ++ source (y ++ c :: z))
        by (rewrite <- app_assoc; cbn [app]; rewrite source_app; reflexivity).
      assert (E2 : source ((x ++ o :: y) ++ c :: z) = source (x ++ o :: y) ++ l_text c ++ source z)
        by (rewrite source_app; reflexivity).
      rewrite E1 at 1. rewrite E2, !range_covers. reflexivity.
    + intros u U. apply in_app_or in U as [U|U]; [apply in_app_or in U as [U|[<-|U]]|].
      * apply plain_not, H, in_or_app. auto.
      * unfold is_kind. rewrite Ko. apply andb_false_r.
      * apply plain_not, H, in_or_app. right. apply in_or_app. auto.
      * apply plain_not, H, in_or_app. right. apply in_or_app. auto.
    + rewrite Cc. unfold is_kind. rewrite Kc. reflexivity.
  - intros u U. apply in_app_or in U as [U|U]; [|apply in_app_or in U as [U|[<-|U]]].
    + apply plain_not, H, in_or_app. auto.
    + apply plain_not, H, in_or_app. right. apply in_or_app. auto.
    + unfold is_kind. rewrite Kc. apply andb_false_r.
    + apply plain_not, H, in_or_app. right. apply in_or_app. auto.
  - rewrite Co. unfold is_kind. rewrite Ko. reflexivity.
Qed.

(** ** C113: at a bracket, the pair is highlighted *)

(** With a bracket of a pair after the cursor, or the cursor within it, both brackets of the
    pair are highlighted, where they are. *)
Theorem C113_pair n ts x o y c z p q : Spec.pair n ts x o y c z -> source ts = p ++ q ->
  before_part_of ts (bytes p) o \/ before_part_of ts (bytes p) c ->
  highlights ts (place p) = [covers (source x) (l_text o); covers (source (x ++ o :: y)) (l_text c)].
Proof.
  intros P E H. unfold highlights. rewrite E at 1. rewrite to_offset_place.
  rewrite <- (pair_ranges n ts x o y c z P). destruct P as (_ & Ko & Kc & Po & Pc & _).
  destruct H as [(b & a & -> & L)|(b & a & -> & L)]; rewrite bytes_app in L; rewrite token_found by exact L.
  - rewrite Ko, Po. reflexivity.
  - rewrite Kc, Pc. reflexivity.
Qed.
Print Assumptions C113_pair.

(** With any other token after the cursor nothing is highlighted. *)
Theorem C113_others ts t p q : source ts = p ++ q -> before_part_of ts (bytes p) t -> l_kind t = Plain ->
  highlights ts (place p) = [].
Proof.
  intros E (b & a & -> & L) K. unfold highlights. rewrite E at 1. rewrite to_offset_place.
  rewrite bytes_app in L. rewrite token_found by exact L. rewrite K. reflexivity.
Qed.
Print Assumptions C113_others.

(** A pair of brackets around a letter, then a space. *)
Definition sample : list leaf :=
  [mkLeaf [10214]%N Open (Some 0); mkLeaf [120]%N Plain None; mkLeaf [10215]%N Close (Some 0); mkLeaf [32]%N Plain None].
Lemma sample_pair : Spec.pair 0 sample [] (mkLeaf [10214]%N Open (Some 0)) [mkLeaf [120]%N Plain None] (mkLeaf [10215]%N Close (Some 0)) [mkLeaf [32]%N Plain None].
Proof. repeat split. intros t [<-|[<-|[]]]; discriminate. Qed.
Example sample_example :
  highlights sample (0, 0) = [((0, 0), (0, 1)); ((0, 2), (0, 3))] /\
  highlights sample (0, 2) = [((0, 0), (0, 1)); ((0, 2), (0, 3))] /\
  highlights sample (0, 1) = [] /\ before_part_of sample 0 (mkLeaf [10214]%N Open (Some 0)).
Proof. repeat split; try reflexivity. exists [], (tl sample). split; [reflexivity|]. cbn. lia. Qed.

(** Refuted: that a cursor just after a bracket highlights its pair.  The token after the
    cursor is always preferred, so it does so only at the end of the source. *)
Theorem C113_after_refuted :
  ~ (forall n ts x o y c z p q, Spec.pair n ts x o y c z -> source ts = p ++ q -> after_part_of ts (bytes p) c ->
       highlights ts (place p) = [covers (source x) (l_text o); covers (source (x ++ o :: y)) (l_text c)]).
Proof.
  intros H. specialize (H _ _ _ _ _ _ _ [10214; 120; 10215]%N [32]%N sample_pair eq_refl).
  assert (A : after_part_of sample (bytes [10214; 120; 10215]%N) (mkLeaf [10215]%N Close (Some 0))).
  { exists (firstn 2 sample), (skipn 3 sample). split; [reflexivity|]. cbn. lia. }
  specialize (H A). vm_compute in H. discriminate.
Qed.
Print Assumptions C113_after_refuted.
