(** Reading what was written. *)
From Coq Require Import List Bool Arith NArith ZArith Lia ZifyN ZifyNat ZifyBool.
From Verif.Simplify Require Import Compress.
From Verif.Bytecode Require Import Model Spec.
Import ListNotations.
Open Scope N_scope.
Ltac Zify.zify_post_hook ::= Z.div_mod_to_equations.

(** ** Readers only depend on the bytes they read *)
Definition le_code (c c' : list N) : Prop := forall i b, nth_error c i = Some b -> nth_error c' i = Some b.
Definition sub {A} (x y : outcome A) : Prop := forall a, x = Done a -> y = Done a.
Lemma sub_refl {A} (x : outcome A) : sub x x.
Proof. intros a H; exact H. Qed.
Lemma sub_bind {A B} (x y : outcome A) (f g : A -> outcome B) :
  sub x y -> (forall a, sub (f a) (g a)) -> sub (obind x f) (obind y g).
Proof.
  intros H K b E. destruct x as [a| |]; cbn in E; try discriminate.
  rewrite (H a eq_refl). cbn. now apply K.
Qed.
Lemma le_code_app c d : le_code c (c ++ d).
Proof. intros i b H. rewrite nth_error_app1; [exact H|]. apply nth_error_Some; congruence. Qed.

Section Mono.
Context (c c' : list N) (L : le_code c c').
Lemma sub_u8 pc : sub (read_u8 c pc) (read_u8 c' pc).
Proof.
  intros [b p]. unfold read_u8. destruct (nth_error c (N.to_nat pc)) eqn:E; [|discriminate].
  intros H. now rewrite (L _ _ E).
Qed.
Ltac sb := apply sub_bind; [|intros []].
Lemma sub_u32 pc : sub (read_u32 c pc) (read_u32 c' pc).
Proof. unfold read_u32. repeat (sb; [apply sub_u8|]). apply sub_refl. Qed.
Lemma sub_ref pc : sub (read_ref c pc) (read_ref c' pc).
Proof. unfold read_ref. sb; [apply sub_u8|]. sb; [apply sub_u32|]. apply sub_refl. Qed.
Lemma sub_many {A} (f g : N -> outcome (A * N)) : (forall pc, sub (f pc) (g pc)) ->
  forall n pc, sub (read_many f n pc) (read_many g n pc).
Proof.
  intros H. induction n as [|n IH]; intros pc; cbn [read_many]; [apply sub_refl|].
  sb; [apply H|]. sb; [apply IH|]. apply sub_refl.
Qed.
Lemma sub_args pc : sub (read_arg_offsets c pc) (read_arg_offsets c' pc).
Proof. unfold read_arg_offsets. sb; [apply sub_u8|]. apply sub_many, sub_u32. Qed.
Lemma sub_header pc : sub (read_form_header c pc) (read_form_header c' pc).
Proof.
  unfold read_form_header. sb; [apply sub_u8|]. sb; [apply sub_u8|]. sb; [apply sub_u32|]. sb; [apply sub_u32|].
  apply sub_refl.
Qed.
Lemma sub_table pc : sub (read_branch_table c pc) (read_branch_table c' pc).
Proof.
  unfold read_branch_table. sb; [apply sub_u8|]. sb; [apply sub_u8|]. sb; [apply sub_many, sub_u32|]. apply sub_refl.
Qed.
Lemma sub_arg_ref off : sub (arg_ref c off) (arg_ref c' off).
Proof. unfold arg_ref. sb; [apply sub_ref|]. apply sub_refl. Qed.
Lemma sub_arg_refs offs : sub (arg_refs c offs) (arg_refs c' offs).
Proof.
  unfold arg_refs. induction offs as [|o offs IH]; cbn [map collect]; [apply sub_refl|].
  apply sub_bind; [apply sub_arg_ref|intros a]. apply sub_bind; [exact IH|]. intros l. apply sub_refl.
Qed.
Lemma sub_node off : sub (read_node c off) (read_node c' off).
Proof.
  unfold read_node. sb; [apply sub_u8|].
  repeat match goal with
  | |- sub (if ?x then _ else _) (if ?x then _ else _) => destruct x
  | |- sub (obind (read_u8 _ _) _) _ => sb; [apply sub_u8|]
  | |- sub (obind (read_u32 _ _) _) _ => sb; [apply sub_u32|]
  | |- sub (obind (read_ref _ _) _) _ => sb; [apply sub_ref|]
  | |- sub (obind (read_arg_offsets _ _) _) _ => sb; [apply sub_args|]
  | |- sub (obind (arg_refs _ _) _) _ => apply sub_bind; [apply sub_arg_refs|intros ?]
  | |- sub (obind (arg_ref _ _) _) _ => apply sub_bind; [apply sub_arg_ref|intros ?]
  | |- sub (obind (read_many (read_form_header _) _ _) _) _ => sb; [apply sub_many, sub_header|]
  | |- sub (obind (read_branch_table _ _) _) _ => apply sub_bind; [apply sub_table|intros [[]]]
  | |- _ => apply sub_refl
  end.
Qed.
Lemma node_mono off n : read_node c off = Done n -> read_node c' off = Done n.
Proof. apply sub_node. Qed.
End Mono.

(** ** Reading given bytes *)
Definition holds (code : list N) (pc : N) (bytes : list N) : Prop :=
  forall i b, nth_error bytes i = Some b -> nth_error code (N.to_nat pc + i) = Some b.

Lemma holds_tail code pc b r : holds code pc (b :: r) -> holds code (pc + 1) r.
Proof.
  intros H i x E. replace (N.to_nat (pc + 1) + i)%nat with (N.to_nat pc + S i)%nat by lia. apply H. exact E.
Qed.
Lemma holds_app code : forall a pc b, holds code pc (a ++ b) ->
  holds code pc a /\ holds code (pc + N.of_nat (length a)) b.
Proof.
  intros a pc b H. split.
  - intros i x E. apply H. rewrite nth_error_app1; [exact E|]. apply nth_error_Some; congruence.
  - intros i x E. replace (N.to_nat (pc + N.of_nat (length a)) + i)%nat with (N.to_nat pc + (length a + i))%nat by lia.
    apply H. rewrite nth_error_app2 by lia. replace (length a + i - length a)%nat with i by lia. exact E.
Qed.
Lemma holds_end pre bytes : holds (pre ++ bytes) (N.of_nat (length pre)) bytes.
Proof.
  intros i b E. rewrite nth_error_app2 by lia. replace (N.to_nat (N.of_nat (length pre)) + i - length pre)%nat with i by lia. exact E.
Qed.
Lemma holds_mono c c' pc b : le_code c c' -> holds c pc b -> holds c' pc b.
Proof. intros L H i x E. apply L, H, E. Qed.

Lemma rd8 code pc b r : holds code pc (b :: r) -> read_u8 code pc = Done (b, pc + 1) /\ holds code (pc + 1) r.
Proof.
  intros H. split; [|now apply holds_tail in H].
  unfold read_u8. specialize (H O b eq_refl). rewrite Nat.add_0_r in H. now rewrite H.
Qed.
Lemma le32_value v : v < 4294967296 ->
  v mod 256 + 256 * (v / 256 mod 256) + 65536 * (v / 65536 mod 256) + 16777216 * (v / 16777216 mod 256) = v.
Proof. intros H. lia. Qed.
Lemma rd32 code pc v r : v < 4294967296 -> holds code pc (le32 v ++ r) ->
  read_u32 code pc = Done (v, pc + 4) /\ holds code (pc + 4) r.
Proof.
  intros B H. cbn [le32 app] in H.
  destruct (rd8 _ _ _ _ H) as [E1 H1]. destruct (rd8 _ _ _ _ H1) as [E2 H2].
  destruct (rd8 _ _ _ _ H2) as [E3 H3]. destruct (rd8 _ _ _ _ H3) as [E4 H4].
  unfold read_u32. rewrite E1; cbn [obind]. rewrite E2; cbn [obind]. rewrite E3; cbn [obind]. rewrite E4; cbn [obind].
  rewrite le32_value by exact B. replace (pc + 1 + 1 + 1 + 1) with (pc + 4) in * by lia. now split.
Qed.
Lemma rd32s code vs : Forall (fun v => v < 4294967296) vs -> forall pc r, holds code pc (flat_map le32 vs ++ r) ->
  exists pc', read_many (read_u32 code) (length vs) pc = Done (vs, pc') /\ holds code pc' r.
Proof.
  induction 1 as [|v vs B _ IH]; intros pc r H.
  - exists pc. now split.
  - cbn [flat_map] in H. rewrite <- app_assoc in H. destruct (rd32 _ _ _ _ B H) as [E1 H1].
    destruct (IH _ _ H1) as (pc' & E2 & H2). exists pc'. split; [|exact H2].
    cbn [length read_many]. rewrite E1. cbn [obind]. rewrite E2. reflexivity.
Qed.
Lemma rd_args code pc offs r : (length offs <= 255)%nat -> Forall (fun v => v < 4294967296) offs ->
  holds code pc (arg_offsets offs ++ r) -> exists pc', read_arg_offsets code pc = Done (offs, pc') /\ holds code pc' r.
Proof.
  intros B F H. unfold arg_offsets in H. cbn [app] in H. destruct (rd8 _ _ _ _ H) as [E1 H1].
  unfold u8 in E1. rewrite N.mod_small in E1 by lia.
  unfold read_arg_offsets. rewrite E1. cbn [obind]. rewrite Nat2N.id. now apply rd32s.
Qed.
Definition hdr (k : fkind) (off : N) : header N :=
  let '(kind, arity, smid) := classify k in mkHeader kind arity smid off.
Lemma rd_header code pc k off r : kind_fits k -> off < 4294967296 -> holds code pc (form_header k off ++ r) ->
  exists pc', read_form_header code pc = Done (hdr k off, pc') /\ holds code pc' r.
Proof.
  intros K B H. unfold form_header, hdr in *. destruct (classify k) as [[kind arity] smid] eqn:C.
  assert (smid < 4294967296) as Bs.
  { destruct k as [n a| |]; cbn in C, K; [destruct (n =? 0)|..]; inversion C; subst; lia. }
  cbn [app] in H. destruct (rd8 _ _ _ _ H) as [E1 H1]. destruct (rd8 _ _ _ _ H1) as [E2 H2].
  rewrite <- app_assoc in H2. destruct (rd32 _ _ _ _ Bs H2) as [E3 H3]. destruct (rd32 _ _ _ _ B H3) as [E4 H4].
  unfold read_form_header. rewrite E1; cbn [obind]. rewrite E2; cbn [obind]. rewrite E3; cbn [obind]. rewrite E4; cbn [obind].
  eauto.
Qed.
Lemma rd_headers {A} code (bs : list (fkind * A)) : forall offs, length offs = length bs ->
  Forall (fun b => kind_fits (fst b)) bs -> Forall (fun v => v < 4294967296) offs ->
  forall pc r, holds code pc (form_headers bs offs ++ r) ->
  exists pc', read_many (read_form_header code) (length bs) pc
              = Done (map (fun p => hdr (fst (fst p)) (snd p)) (combine bs offs), pc') /\ holds code pc' r.
Proof.
  induction bs as [|[k b] bs IH]; intros [|o offs] L K B pc r H; cbn in L; try discriminate.
  - exists pc. now split.
  - inversion K; subst. inversion B; subst.
    unfold form_headers in H. cbn [combine flat_map fst snd] in H. rewrite <- app_assoc in H.
    destruct (rd_header code pc k o _ H2 H4 H) as (p1 & E1 & H1).
    destruct (IH offs ltac:(lia) H3 H5 _ _ H1) as (p2 & E2 & H2').
    exists p2. split; [|exact H2']. cbn [length read_many]. rewrite E1. cbn [obind]. rewrite E2. reflexivity.
Qed.
