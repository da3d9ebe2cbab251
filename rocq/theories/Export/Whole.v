(** * A document is written whole or not at all *)

From Coq Require Import String List NArith ZArith Bool Lia.
From Verif Require Import Export.Model Export.Spec Export.Maps Export.Writing.
Import ListNotations.
Open Scope list_scope.

(** ** Balanced actions *)

Inductive kind := KValue | KList | KBlock.

Definition kind_of (x : expectation) : kind :=
  match x with Value _ => KValue | ListAcc _ _ => KList | EvenBlock _ _ | OddBlock _ _ _ => KBlock end.

Definition balanced (f : format) (acts : list action) : Prop :=
  forall a top st, result a = None -> stack a = top :: st ->
  exists a' o, run f a acts = (a', [], o) /\ result a' = None /\ document_open a' = document_open a /\
    (o = None -> exists top', stack a' = top' :: st /\ kind_of top' = kind_of top).

Lemma kind_feed f x t : kind_of (feed_one f x t) = kind_of x.
Proof. now destruct x. Qed.

Lemma balanced_nil f : balanced f [].
Proof. intros a top st R S. exists a, None. cbn. repeat split; auto. intros _. eauto. Qed.

Lemma balanced_app f xs ys : balanced f xs -> balanced f ys -> balanced f (xs ++ ys).
Proof.
  intros X Y a top st R S. rewrite run_app. destruct (X a top st R S) as (a' & o & -> & R' & D & T).
  destruct o as [x|].
  - exists a', (Some x). repeat split; auto; try discriminate.
  - destruct (T eq_refl) as (top' & S' & K). destruct (Y a' top' st R' S') as (a'' & o' & -> & R'' & D' & T').
    exists a'', o'. split; [reflexivity|split; [exact R''|split; [congruence|]]]. intros E. destruct (T' E) as (top'' & S'' & K').
    exists top''. split; [exact S''|congruence].
Qed.

Lemma balanced_fail f x : balanced f [Fail x].
Proof. intros a top st R S. exists a, (Some x). cbn. repeat split; auto; try discriminate. Qed.

Lemma balanced_scalar f t p : balanced f [Emit (Scalar t p)].
Proof.
  intros a top st R S. cbn [run offer].
  destruct (unrepresentable f p); [exists a, (Some Unrepresentable); repeat split; auto; discriminate|].
  destruct (unacceptable f a (Scalar t p)); [exists a, (Some Unrenderable); repeat split; auto; discriminate|].
  unfold emit, consume. cbn [result]. rewrite R, S. cbn [run feed app].
  eexists _, None. split; [reflexivity|]. cbn [result document_open stack]. repeat split; auto.
  intros _. eexists. split; [reflexivity|]. apply kind_feed.
Qed.

Lemma balanced_flat {A} f (g : A -> list action) l : Forall (fun x => balanced f (g x)) l -> balanced f (flat_map g l).
Proof.
  induction 1 as [|x l Hx _ IH]; [apply balanced_nil|]. cbn [flat_map]. now apply balanced_app.
Qed.

Lemma balanced_map {A} f (g : A -> action) l : (forall x, balanced f [g x]) -> balanced f (map g l).
Proof.
  intros H. induction l as [|x l IH]; [apply balanced_nil|]. cbn [map].
  change (g x :: map g l) with ([g x] ++ map g l). now apply balanced_app.
Qed.

Lemma balanced_seq f t acts : balanced f acts -> balanced f (Emit (SeqStart t) :: acts ++ [Emit SeqEnd]).
Proof.
  intros B a top st R S. cbn [run offer].
  destruct (unacceptable f a (SeqStart t)); [exists a, (Some Unrenderable); repeat split; auto; discriminate|].
  unfold emit, consume. cbn [result]. rewrite R, run_app.
  destruct (B (mkAccum (ListAcc t [] :: stack a) None (document_open a)) (ListAcc t []) (stack a) eq_refl eq_refl)
    as (a' & o & -> & R' & D & T). cbn [document_open] in D. destruct o as [x|].
  - exists a', (Some x). repeat split; auto; try discriminate.
  - destruct (T eq_refl) as (top' & S' & K). destruct top'; try discriminate K. cbn [run offer].
    assert (U : unacceptable f a' SeqEnd = false).
    { unfold unacceptable, expecting_key. rewrite S'. now destruct f. }
    rewrite U. unfold emit, consume. cbn [result]. rewrite R', S', S. cbn [feed run app].
    eexists _, None. split; [reflexivity|]. cbn [result document_open stack]. repeat split; auto.
    intros _. eexists. split; [reflexivity|]. apply kind_feed.
Qed.

Lemma balanced_block f t acts : balanced f acts -> balanced f (Emit (BlockStart t) :: acts ++ [Emit BlockEnd]).
Proof.
  intros B a top st R S. cbn [run offer].
  destruct (unacceptable f a (BlockStart t)); [exists a, (Some Unrenderable); repeat split; auto; discriminate|].
  unfold emit, consume. cbn [result]. rewrite R, run_app.
  destruct (B (mkAccum (EvenBlock t [] :: stack a) None (document_open a)) (EvenBlock t []) (stack a) eq_refl eq_refl)
    as (a' & o & -> & R' & D & T). cbn [document_open] in D. destruct o as [x|].
  - exists a', (Some x). repeat split; auto; try discriminate.
  - destruct (T eq_refl) as (top' & S' & K). cbn [run offer].
    assert (U : unacceptable f a' BlockEnd = false).
    { unfold unacceptable, unrepresentable_key. destruct f; try reflexivity; now destruct (negb (expecting_key a')). }
    rewrite U. unfold emit, consume. cbn [result]. rewrite R', S', S.
    destruct top'; try discriminate K; cbn [feed run app];
      (eexists _, None; split; [reflexivity|]; cbn [result document_open stack]; repeat split; auto;
       intros _; eexists; split; [reflexivity|]; rewrite ?kind_feed; reflexivity).
Qed.

Lemma balanced_improper f t acts : balanced f acts -> balanced f (Emit (SeqStart t) :: acts ++ [Fail Improper]).
Proof.
  intros B a top st R S. cbn [run offer].
  destruct (unacceptable f a (SeqStart t)); [exists a, (Some Unrenderable); repeat split; auto; discriminate|].
  unfold emit, consume. cbn [result]. rewrite R, run_app.
  destruct (B (mkAccum (ListAcc t [] :: stack a) None (document_open a)) (ListAcc t []) (stack a) eq_refl eq_refl)
    as (a' & o & -> & R' & D & T). cbn [document_open] in D. destruct o as [x|].
  - exists a', (Some x). repeat split; auto; try discriminate.
  - exists a', (Some Improper). repeat split; auto; try discriminate.
Qed.

Lemma balanced_array f x : balanced f (emit_array x).
Proof.
  induction x as [b|l IH] using array_ind'; cbn [emit_array]; [apply balanced_scalar|].
  apply balanced_seq. now apply balanced_flat.
Qed.

Lemma balanced_elems f l : balanced f (emit_elems l).
Proof. unfold emit_elems. apply balanced_seq, balanced_map. intros e. apply balanced_scalar. Qed.

Lemma balanced_native f n : balanced f (emit_native n).
Proof.
  destruct n; cbn [emit_native]; auto using balanced_scalar, balanced_elems, balanced_array, balanced_fail.
Qed.

Lemma balanced_render f v : balanced f (render v).
Proof.
  induction v as [ms|ms b|ms a|ms n|ms l p IH|ms items IH|ms|ms] using value_ind';
    (match goal with |- balanced f (render ?v) =>
       destruct (hidden_dec v) as [H|V]; [rewrite (render_hidden v H); apply balanced_nil|
         rewrite (render_visible v V)] end);
    auto using balanced_scalar, balanced_native, balanced_fail.
  - destruct p; [apply balanced_seq|apply balanced_improper]; now apply balanced_flat.
  - apply balanced_block, balanced_flat. eapply Forall_impl; [|exact IH]. intros [k v|l] W; cbn [within render_item] in *.
    + destruct (renderable v); [|apply balanced_nil].
      change (Emit (Scalar None (Atom k)) :: render v) with ([Emit (Scalar None (Atom k))] ++ render v).
      apply balanced_app; [apply balanced_scalar|exact W].
    + now apply balanced_flat.
Qed.

(** ** The document *)

Definition start : accum := mkAccum [Value (from_pairs Eu None [])] None true.

Lemma empty_doc f : from_pairs f None [] = Map None [].
Proof. now destruct f. Qed.

Lemma write_out_eq f v : write_out f v =
  let '(a, w, o) := run f start (render v) in
  match o with
  | Some x => (w ++ match result (consume f a StreamEnd) with Some t => [t] | None => [] end, Some x)
  | None =>
    let a' := consume f a DocEnd in
    (w ++ match result a' with Some t => [t] | None => [] end ++
       match result (consume f a' StreamEnd) with Some t => [t] | None => [] end, None)
  end.
Proof.
  unfold write_out, render_doc. unfold emit at 1. cbn [consume result new_accum].
  cbn [run offer].
  assert (U : forall e, unacceptable f (mkAccum [] None false) e = false) by (intros e; now destruct f).
  unfold new_accum at 1. rewrite U. unfold emit at 1. cbn [consume stack new_accum result document_open].
  rewrite empty_doc. change (mkAccum [Value (Map None [])] None true) with start. rewrite run_app.
  destruct (run f start (render v)) as [[a w] [x|]].
  - unfold emit. now rewrite !app_nil_l.
  - cbn [run offer].
    assert (D : unacceptable f a DocEnd = false).
    { unfold unacceptable, unrepresentable_key. destruct f; try reflexivity; now destruct (negb (expecting_key a)). }
    rewrite D. unfold emit. rewrite !app_nil_l. rewrite !app_nil_r. now rewrite app_assoc.
Qed.

Lemma written_whole f v :
  (exists t, write_out f v = ([t], None)) \/ (exists x, write_out f v = ([], Some x)).
Proof.
  rewrite write_out_eq.
  destruct (balanced_render f v start _ _ eq_refl eq_refl) as (a & o & -> & R & D & T).
  destruct o as [x|].
  - right. exists x. cbn [app]. unfold consume. rewrite D. cbn [start document_open]. now rewrite R.
  - left. destruct (T eq_refl) as (top & S & K). destruct top as [t| | |]; try discriminate K. exists t.
    cbn [consume document_open stack result app]. rewrite R, S. reflexivity.
Qed.

Lemma feeds_written f v t : feeds f v t -> write_out f v = ([t], None).
Proof.
  intros F. rewrite write_out_eq. specialize (F start [] eq_refl (or_intror Logic.I)). rewrite app_nil_r in F.
  rewrite F. cbn [run push feed start stack feed_one result document_open]. reflexivity.
Qed.

Lemma refused_written f v : refused f v -> exists x, write_out f v = ([], Some x).
Proof.
  intros F. destruct (written_whole f v) as [[t W]|H]; [|exact H]. exfalso.
  rewrite write_out_eq in W. destruct (F start [] eq_refl (or_intror Logic.I)) as (a & x & E).
  rewrite app_nil_r in E. rewrite E in W. discriminate W.
Qed.

Lemma hidden_written f v : hidden v -> write_out f v = ([Map None []], None).
Proof. intros H. rewrite write_out_eq, (render_hidden v H). reflexivity. Qed.

(** ** What shows is fit *)

Scheme shows_mut := Induction for shows Sort Prop
  with shows_all_mut := Induction for shows_all Sort Prop
  with shows_entries_mut := Induction for shows_entries Sort Prop.
Combined Scheme shows_combined from shows_mut, shows_all_mut, shows_entries_mut.

Definition fit_item (f : format) (i : item value) : Prop :=
  match i with
  | Pair k v => visible v -> ~ is_function v -> ~ unfit f v /\ (f <> Yaml -> exists s, text_atom k s) /\
                  (f = Yaml -> forall z, k = Num (Int z) -> (z < 2 ^ 63)%Z)
  | KvList l => forall k v, l = [k; v] -> ~ unfit f v /\ (f <> Yaml -> exists s, text_value k s) /\ (f = Yaml -> ~ unfit f k)
  end.

Lemma shows_fit f :
  (forall v t, shows f v t -> ~ unfit f v) /\
  (forall l ts, shows_all f l ts -> forall v, In v l -> visible v -> ~ unfit f v) /\
  (forall items ps, shows_entries f items ps -> forall i, In i items -> fit_item f i).
Proof.
  apply shows_combined.
  - intros ms N U. inversion U; subst. now elim N.
  - intros ms b U. inversion U.
  - intros ms a H U. inversion U as [|? z K L E| | | | | | | |]; subst. specialize (H K z eq_refl). lia.
  - intros ms a H U. inversion U as [| |? z K L E| | | | | | |]; subst. specialize (H K z eq_refl). lia.
  - intros ms l U. inversion U.
  - intros ms l U. inversion U.
  - intros ms a U. inversion U.
  - intros ms l ts _ IH U. inversion U as [| | |? ? v I V U'| | | | | |]; subst. exact (IH v I V U').
  - intros ms items ps ps' _ IH _ U. inversion U; subst;
      match goal with I : In _ items |- _ => pose proof (IH _ I) as F; cbn [fit_item] in F end.
    + destruct F as [F _]; auto.
    + destruct F as (_ & F & _); auto. match goal with N : f <> Yaml, X : forall s, ~ text_atom _ s |- _ => destruct (F N) as [s T]; exact (X s T) end.
    + destruct F as (_ & _ & F); auto. specialize (F eq_refl z eq_refl). lia.
    + destruct (F k v eq_refl) as [F' _]. auto.
    + destruct (F k v eq_refl) as (_ & F' & _). match goal with N : f <> Yaml, X : forall s, ~ text_value _ s |- _ => destruct (F' N) as [s T]; exact (X s T) end.
    + destruct (F k v eq_refl) as (_ & _ & F'). now apply F'.
  - intros v [].
  - intros v l ts H _ IH w [<-|I] V; [contradiction|now apply IH].
  - intros v t l ts V _ IHv _ IH w [<-|I] Vw; [exact IHv|now apply IH].
  - intros i [].
  - intros k v r ps H _ IH i [<-|I]; [|now apply IH]. intros V NF. destruct H; contradiction.
  - intros k s v t r ps T V _ IHv _ IH i [<-|I]; [|now apply IH]. intros _ _. split; [exact IHv|]. split; [eauto|].
    intros _ z ->. destruct T as [T|T]; discriminate T.
  - intros k v t r ps Y L V _ IHv _ IH i [<-|I]; [|now apply IH]. intros _ _. split; [exact IHv|]. split; [contradiction|].
    intros _. exact L.
  - intros k s v t r ps N T Vk V _ IHv _ IH i [<-|I]; [|now apply IH]. intros k' v' E. injection E as <- <-.
    split; [exact IHv|]. split; [eauto|contradiction].
  - intros k tk v t r ps Y _ IHk Vk V _ IHv _ IH i [<-|I]; [|now apply IH]. intros k' v' E. injection E as <- <-.
    split; [exact IHv|]. split; [contradiction|auto].
Qed.
