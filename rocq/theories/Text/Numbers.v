(** The numbers of numbered holes. *)
From Coq Require Import List NArith ZArith Bool Lia.
Import ListNotations.
From Verif.Text Require Import Model Spec.
Open Scope N_scope.

Lemma digits_ok : forall s p v z, Decimal p v -> digits v s = Some z -> Decimal (p ++ s) z.
Proof.
  induction s as [|c s IH]; cbn; intros p v z D E.
  - injection E as <-. now rewrite app_nil_r.
  - destruct ((48 <=? c) && (c <=? 57)) eqn:R; try discriminate. apply andb_true_iff in R as [R1 R2]. apply N.leb_le in R1, R2.
    replace (p ++ c :: s) with ((p ++ [48 + (c - 48)]) ++ s). 2: { replace (48 + (c - 48)) with c by lia. now rewrite <- app_assoc. }
    eapply IH; [|exact E]. replace (v * 10)%Z with (10 * v)%Z by lia. constructor; auto. lia.
Qed.

Lemma Decimal_digits : forall s z, Decimal s z -> forall r v, digits v (s ++ r) = digits (v * 10 ^ Z.of_nat (length s) + z) r.
Proof.
  induction 1 as [|s d z D IH L]; intros r v.
  - cbn. f_equal. lia.
  - rewrite <- app_assoc, IH. cbn [app digits]. rewrite (proj2 (N.leb_le _ _)), (proj2 (N.leb_le _ _)) by lia. cbn [andb]. f_equal.
    rewrite app_length. cbn [length]. rewrite Nat2Z.inj_add, Z.pow_add_r by lia. change (10 ^ Z.of_nat 1)%Z with 10%Z. replace (48 + d - 48) with d by lia. lia.
Qed.

Lemma digits_spec : forall s z, digits 0 s = Some z <-> Decimal s z.
Proof.
  intros s z. split.
  - intros E. exact (digits_ok s [] 0%Z z Decimal_nil E).
  - intros D. pose proof (Decimal_digits s z D [] 0%Z) as E. rewrite app_nil_r in E. now rewrite E.
Qed.

Lemma Decimal_head : forall c s z, Decimal (c :: s) z -> 48 <= c <= 57.
Proof.
  intros c s z D. apply digits_spec in D. cbn in D. destruct ((48 <=? c) && (c <=? 57)) eqn:R; try discriminate. apply andb_true_iff in R as [R1 R2]. apply N.leb_le in R1, R2. lia.
Qed.

Lemma unsigned_spec : forall s z, match s with [] => None | _ => digits 0 s end = Some z <-> s <> [] /\ Decimal s z.
Proof. intros [|c s] z; [split; [discriminate|tauto]|]. rewrite digits_spec. split; [split; auto; discriminate|tauto]. Qed.

Definition signed (s : text) : option Z :=
  let unsigned s := match s with [] => None | _ => digits 0 s end in
  match s with
  | 45 :: s => option_map Z.opp (unsigned s)
  | 43 :: s => unsigned s
  | _ => unsigned s
  end.

Lemma signed_other : forall s, (forall r, s <> 45 :: r) -> (forall r, s <> 43 :: r) -> signed s = match s with [] => None | _ => digits 0 s end.
Proof.
  intros [|c s] H H'; [reflexivity|]. destruct (N.eq_dec c 45) as [->|N1]; [destruct (H s); auto|]. destruct (N.eq_dec c 43) as [->|N2]; [destruct (H' s); auto|].
  unfold signed. destruct c as [|[[[[[[p|p|]|[p|p|]|]|[[p|p|]|[p|p|]|]|]|[[[p|p|]|[p|p|]|]|[[p|p|]|[p|p|]|]|]|]|[[[[p|p|]|[p|p|]|]|[[p|p|]|[p|p|]|]|]|[[[p|p|]|[p|p|]|]|[[p|p|]|[p|p|]|]|]|]|]|p|]]; reflexivity || congruence.
Qed.

Lemma signed_spec : forall s z, signed s = Some z <-> exists sign ds v, s = sign ++ ds /\ ds <> [] /\ Decimal ds v /\
    ((sign = [] \/ sign = [43]) /\ z = v \/ sign = [45] /\ z = (- v)%Z).
Proof.
  intros s z. split.
  - intros E. destruct s as [|c s]; [discriminate|]. destruct (N.eq_dec c 45) as [->|N1]; [|destruct (N.eq_dec c 43) as [->|N2]].
    + cbn -[digits] in E. destruct (match s with [] => None | _ => digits 0 s end) as [v|] eqn:U; try discriminate. injection E as <-.
      apply unsigned_spec in U as [NE D]. exists [45], s, v. auto 10.
    + cbn -[digits] in E. apply unsigned_spec in E as [NE D]. exists [43], s, z. auto 10.
    + rewrite signed_other in E; try congruence. exists [], (c :: s), z. apply (unsigned_spec (c :: s)) in E as [NE D]. auto 10.
  - intros (sign & ds & v & -> & NE & D & [[[-> | ->] ->]|[-> ->]]).
    + destruct ds as [|c ds]; [congruence|]. apply Decimal_head in D as R. cbn [app]. rewrite signed_other by (intros ? X; injection X as -> _; lia). now apply (unsigned_spec (c :: ds)).
    + cbn -[digits]. now apply unsigned_spec.
    + cbn -[digits]. rewrite (proj2 (unsigned_spec ds v)); auto.
Qed.

Lemma number_spec : forall s z, parse_i32 s = Some z <-> Number s z.
Proof.
  intros s z. unfold Number. rewrite <- signed_spec. change (parse_i32 s) with (match signed s with Some z => if ((-2147483648 <=? z) && (z <=? 2147483647))%Z then Some z else None | None => None end).
  change (2 ^ 31)%Z with 2147483648%Z. destruct (signed s) as [v|]; [|split; [discriminate|intros []; discriminate]].
  destruct (((-2147483648 <=? v) && (v <=? 2147483647))%Z) eqn:R.
  - apply andb_true_iff in R as [R1 R2]. apply Z.leb_le in R1, R2. split; [injection 1 as <-; split; auto; lia|intros [_ E]; exact E].
  - split; [discriminate|]. intros [B E]. injection E as ->. apply andb_false_iff in R as [R|R]; apply Z.leb_gt in R; lia.
Qed.
