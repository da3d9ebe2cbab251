From Coq Require Import String List NArith Bool Ascii Lia.
From Verif Require Import Yaml.Model Yaml.Spec Yaml.Structure.
Import ListNotations.
Open Scope string_scope.
Open Scope list_scope.

(** ** Data without code *)

Definition inert_entries (es : list (string * expr)) : Prop := forall k e, In (k, e) es -> inert e.

Lemma inert_close e : inert e -> forall names d, close names d e = e.
Proof.
  induction e as [e O|e t IH|e IH|l F|es F] using expr_ind'; intros H names d.
  - destruct e; try contradiction O; try reflexivity. inversion H.
  - inversion H; subst. cbn. now rewrite IH.
  - inversion H; subst. cbn. now rewrite IH.
  - inversion H as [| | | | | | |? I|]; subst. cbn. f_equal. rewrite <- (map_id l) at 2. apply map_ext_in. intros x X.
    rewrite Forall_forall in F. apply F; auto.
  - inversion H as [| | | | | | | |? I]; subst. cbn. f_equal. rewrite <- (map_id es) at 2. apply map_ext_in. intros [k x] X.
    rewrite Forall_forall in F. f_equal. apply (F (k, x) X). cbn. eauto.
Qed.

Lemma inert_let es : inert_entries es -> default_let es = EBlock es.
Proof.
  intros H. unfold default_let. f_equal. rewrite <- (map_id es) at 2. apply map_ext_in. intros [k x] X.
  rewrite inert_close; [reflexivity|]. eauto.
Qed.

Lemma inert_replace es e : inert_entries es -> inert (snd e) -> inert_entries (replace es e).
Proof.
  intros H I k x X. unfold replace in X. apply in_app_or in X. destruct X as [X|[E|[]]]; [|subst e; exact I].
  apply filter_In in X. now apply (H k).
Qed.

Lemma inert_fold new : forall es, inert_entries es -> inert_entries new -> inert_entries (fold_left replace new es).
Proof.
  induction new as [|[k v] new IH]; intros es H N; [exact H|]. cbn. apply IH.
  - apply inert_replace; [exact H|]. apply (N k). now left.
  - intros k' x I. apply (N k'). now right.
Qed.

Lemma inert_merge new : forall es, inert_entries es -> inert_entries new -> inert_entries (merge_into es new).
Proof.
  unfold merge_into. induction new as [|[k v] new IH]; intros es H N; [exact H|]. cbn. apply IH.
  - destruct (has_key k es); [exact H|]. intros k' x I. apply in_app_or in I. destruct I as [I|[[= <- <-]|[]]]; [eauto|].
    apply (N k). now left.
  - intros k' x I. apply (N k'). now right.
Qed.

Lemma inert_extract e : inert e -> forall es, extract e = Some es -> inert_entries es.
Proof.
  induction e as [e O|e t IH|e IH|l F|es F] using expr_ind'; intros H es' E.
  - destruct e; try contradiction O; discriminate.
  - discriminate.
  - discriminate.
  - change (extract (EList l)) with (go_extract l []) in E. inversion H as [| | | | | | |? I|]; subst.
    assert (G : forall l acc, Forall (fun e => inert e -> forall es, extract e = Some es -> inert_entries es) l ->
              (forall e, In e l -> inert e) -> inert_entries acc -> go_extract l acc = Some es' -> inert_entries es').
    { clear. induction l as [|x l IH]; intros acc F I A E; cbn in E; [now injection E as <-|].
      inversion F; subst. destruct (extract x) as [ex|] eqn:X; [|discriminate].
      apply (IH (fold_left replace ex acc)); auto.
      - intros e Ie. apply I. now right.
      - apply inert_fold; [exact A|]. apply H1; [apply I; now left|reflexivity]. }
    apply (G l []); auto. intros k e [].
  - injection E as <-. inversion H as [| | | | | | | |? I]; subst. exact I.
Qed.

Definition inert_place (x : expectation) : Prop :=
  match x with
  | Value e => inert e
  | Listing l _ => forall e, In e l -> inert e
  | Even es _ => inert_entries es
  | Odd es _ _ => inert_entries es
  end.

Definition inert_state (s : state) : Prop :=
  match s with
  | Running stack m => (forall x, In x stack -> inert_place x) /\ (forall i e, m i = Some e -> inert e)
  | _ => True
  end.

Lemma inert_feed stack e st : (forall x, In x stack -> inert_place x) -> inert e -> feed stack e = Some st ->
  forall x, In x st -> inert_place x.
Proof.
  intros H I F. destruct stack as [|top r]; cbn in F.
  - injection F as <-. intros x [<-|[]]. exact I.
  - assert (R : forall x, In x r -> inert_place x) by (intros x X; apply H; now right).
    pose proof (H top (or_introl eq_refl)) as T. destruct top as [v|l a|es a|es k a]; cbn in T.
    + injection F as <-. intros x [<-|X]; [exact I|now apply R].
    + injection F as <-. intros x [<-|X]; [|now apply R]. cbn. intros y Y. apply in_app_or in Y.
      destruct Y as [Y|[<-|[]]]; [now apply T|exact I].
    + destruct e; try discriminate; injection F as <-; intros x [<-|X]; try exact T; now apply R.
    + destruct (String.eqb k "<<").
      * destruct (extract e) as [new|] eqn:X; [|discriminate]. injection F as <-. intros x [<-|Y]; [|now apply R].
        cbn. apply inert_merge; [exact T|]. now apply (inert_extract e).
      * injection F as <-. intros x [<-|Y]; [|now apply R]. cbn. now apply inert_replace.
Qed.

Lemma inert_fed stack m e : inert_state (Running stack m) -> inert e -> inert_state (fed stack m e).
Proof.
  intros [H M] I. unfold fed. destruct (feed stack e) as [st|] eqn:F; [|exact Logic.I].
  split; [|exact M]. now apply (inert_feed stack e).
Qed.

Lemma inert_put stack m a e : inert_state (Running stack m) -> inert e -> inert_state (Running stack (put a e m)).
Proof.
  intros [H M] I. split; [exact H|]. destruct a as [i|]; [|exact M]. intros j x. cbn.
  destruct (Nat.eqb j i); [intros [= <-]; exact I|apply M].
Qed.

Section Reading.

Variable is_timestamp : string -> bool.
Variable normalize : string -> string.
Variable in_range : string -> bool.
Variable parse_eu parse_eu_fn : string -> option (list string).
Notation convert := (convert_scalar is_timestamp normalize in_range parse_eu parse_eu_fn true).
Notation step := (on_event is_timestamp normalize in_range parse_eu parse_eu_fn true).

Lemma inert_number s e : number in_range s = Some e -> inert e.
Proof. unfold number. destruct (_ && _); [|discriminate]. intros [= <-]. constructor. Qed.

Lemma inert_convert t p tg e : convert t p tg = Some e -> inert e.
Proof.
  unfold convert_scalar. cbv zeta.
  destruct (match match tg with Some t0 => from_token_type t0 | None => None end with Some t0 => t0 | None => _ end) as [| | | | | |c];
    try (intros [= <-]; constructor); try apply inert_number.
  destruct (String.eqb c "eu"); [intros [= <-]; constructor|].
  destruct (String.eqb c "eu::fn"); [intros [= <-]; constructor|].
  destruct (String.eqb c "eu::suppress"); intros [= <-]; constructor; constructor.
Qed.

Lemma inert_step s ev : inert_state s -> inert_state (step s ev).
Proof.
  destruct s as [stack m| |]; [|exact (fun H => H)|exact (fun H => H)]. intros H. destruct ev as [t p a tg|a| |a| |a]; cbn [on_event].
  - assert (C : inert_state match convert t p tg with Some e => fed stack (put (anchor_of a) e m) e | None => Failed end).
    { destruct (convert t p tg) as [e|] eqn:C; [|exact Logic.I]. apply inert_convert in C.
      apply inert_fed; [now apply inert_put|exact C]. }
    destruct stack as [|[] ?]; try exact C. apply inert_fed; [exact H|constructor].
  - destruct H as [H M]. split; [|exact M]. intros x [<-|X]; [intros e []|now apply H].
  - destruct stack as [|[e|l b|es b|es k b] r]; try exact Logic.I. destruct H as [H M].
    assert (I : inert (EList l)) by (constructor; exact (H _ (or_introl eq_refl))).
    apply inert_fed; [|exact I]. apply inert_put; [|exact I]. split; [|exact M]. intros x X. apply H. now right.
  - destruct H as [H M]. split; [|exact M]. intros x [<-|X]; [intros k e []|now apply H].
  - destruct stack as [|[e|l b|es b|es k b] r]; try exact Logic.I. destruct H as [H M].
    pose proof (H _ (or_introl eq_refl)) as T. cbn in T. rewrite inert_let by exact T.
    assert (I : inert (EBlock es)) by (constructor; exact T).
    apply inert_fed; [|exact I]. apply inert_put; [|exact I]. split; [|exact M]. intros x X. apply H. now right.
  - destruct (m a) as [e|] eqn:E; [|exact Logic.I]. apply inert_fed; [exact H|]. now apply (proj2 H a).
Qed.

Lemma inert_run evs : forall s, inert_state s -> inert_state (fold_left step evs s).
Proof. induction evs as [|ev evs IH]; intros s H; [exact H|]. cbn. now apply IH, inert_step. Qed.

Theorem read_inert evs e :
  read_yaml is_timestamp normalize in_range parse_eu parse_eu_fn true evs = Read e -> inert e.
Proof.
  unfold read_yaml. pose proof (inert_run evs (Running [] (fun _ => None))) as H.
  destruct (fold_left _ _ _) as [stack m| |]; try discriminate. destruct H as [H _].
  { split; [intros x []|intros i x; discriminate]. }
  assert (B : inert (EBlock [])) by (constructor; intros k x []).
  destruct stack as [|[v|l b|es b|es k b] r]; intros [= <-]; try exact B. exact (H _ (or_introl eq_refl)).
Qed.

End Reading.

Section TomlInd.
Variable P : toml -> Prop.
Hypothesis Pother : forall v, (match v with TomlArray _ | TomlTable _ => False | _ => True end) -> P v.
Hypothesis Parray : forall l, Forall P l -> P (TomlArray l).
Hypothesis Ptable : forall es, Forall (fun e => P (snd e)) es -> P (TomlTable es).
Fixpoint toml_ind' (v : toml) : P v.
Proof.
  destruct v; try (apply Pother; exact Logic.I).
  - apply Parray. induction l as [|x l IH]; constructor; [apply toml_ind'|exact IH].
  - apply Ptable. induction es as [|[k x] l IH]; constructor; [apply toml_ind'|exact IH].
Defined.
End TomlInd.

Section EdnInd.
Variable P : edn -> Prop.
Hypothesis Pother : forall v, (match v with EdnSeq _ | EdnMap _ | EdnTagged _ _ => False | _ => True end) -> P v.
Hypothesis Pseq : forall l, Forall P l -> P (EdnSeq l).
Hypothesis Pmap : forall es, Forall (fun e => P (snd e)) es -> P (EdnMap es).
Hypothesis Ptagged : forall t e, P e -> P (EdnTagged t e).
Fixpoint edn_ind' (v : edn) : P v.
Proof.
  destruct v; try (apply Pother; exact Logic.I).
  - apply Pseq. induction l as [|x l IH]; constructor; [apply edn_ind'|exact IH].
  - apply Pmap. induction es as [|[k x] l IH]; constructor; [apply edn_ind'|exact IH].
  - apply Ptagged, edn_ind'.
Defined.
End EdnInd.

Lemma traverse_in {A B} (f : A -> option B) l : forall ys y, traverse f l = Some ys -> In y ys -> exists x, In x l /\ f x = Some y.
Proof.
  induction l as [|x l IH]; intros ys y T I; cbn in T.
  - injection T as <-. destruct I.
  - fold (traverse f l) in T. destruct (f x) as [z|] eqn:F; [|discriminate]. destruct (traverse f l) as [zs|]; [|discriminate].
    injection T as <-. destruct I as [<-|I]; [exists x; split; [now left|exact F]|].
    destruct (IH zs y eq_refl I) as (x' & X & E). exists x'. split; [now right|exact E].
Qed.

Lemma toml_inert v : forall e, toml_to_core true v = Some e -> inert e.
Proof.
  induction v as [v O|l F|es F] using toml_ind'; intros e E.
  - destruct v; try contradiction O; cbn in E; try (injection E as <-; constructor).
    destruct text; [injection E as <-; constructor|discriminate].
  - cbn [toml_to_core] in E. destruct (traverse _ l) as [ys|] eqn:T; [|discriminate]. injection E as <-. constructor.
    intros y Y. destruct (traverse_in _ _ _ _ T Y) as (x & X & E). rewrite Forall_forall in F. now apply (F x).
  - cbn [toml_to_core] in E. destruct (traverse _ es) as [ys|] eqn:T; [|discriminate]. injection E as <-. constructor.
    intros k y Y. destruct (traverse_in _ _ _ _ T Y) as ([k' x] & X & E). rewrite Forall_forall in F.
    destruct (toml_to_core true x) as [z|] eqn:Z; [|discriminate]. injection E as <- <-. now apply (F (k', x) X).
Qed.

Lemma edn_inert v : forall e, edn_to_core true v = Some e -> inert e.
Proof.
  induction v as [v O|l F|es F|t v IH] using edn_ind'; intros e E.
  - destruct v; try contradiction O; cbn in E; try discriminate; try (injection E as <-; repeat constructor).
    destruct t; [injection E as <-; constructor|discriminate].
  - cbn [edn_to_core] in E. destruct (traverse _ l) as [ys|] eqn:T; [|discriminate]. injection E as <-. constructor.
    intros y Y. destruct (traverse_in _ _ _ _ T Y) as (x & X & E). rewrite Forall_forall in F. now apply (F x).
  - cbn [edn_to_core] in E. destruct (traverse _ es) as [ys|] eqn:T; [|discriminate]. injection E as <-. constructor.
    intros k y Y. destruct (traverse_in _ _ _ _ T Y) as ([k' x] & X & E). rewrite Forall_forall in F.
    destruct (edn_key k'), (edn_to_core true x) as [z|] eqn:Z; try discriminate. injection E as <- <-. now apply (F (k', x) X).
  - cbn in E. destruct (edn_to_core true v) as [z|]; [|discriminate]. injection E as <-. constructor. now apply IH.
Qed.

(** ** References *)

Lemma close_resolved e : forall names d, resolved d e -> resolved (S d) (close names d e).
Proof.
  induction e as [e O|e t IH|e IH|l F|es F] using expr_ind'; intros names d H.
  - destruct e; try contradiction O; try (cbn; now apply resolved_other).
    cbn. constructor. intros s b I. apply in_map_iff in I. destruct I as (r & E & I).
    inversion H; subst; [|contradiction]. destruct r as [n|s' b']; cbn in E.
    + destruct (position n names) as [i|]; [|discriminate]. injection E as <- <-. apply PeanoNat.Nat.lt_succ_diag_r.
    + pose proof (H2 _ _ I) as L. replace (Nat.leb d s') with false in E by (symmetry; apply PeanoNat.Nat.leb_gt; exact L).
      injection E as <- <-. lia.
  - inversion H; subst; [|contradiction]. cbn. constructor. auto.
  - inversion H; subst; [|contradiction]. cbn. constructor. auto.
  - inversion H as [| | |? ? I| |]; subst; [|contradiction]. cbn. constructor. intros x X. apply in_map_iff in X.
    destruct X as (y & <- & Y). rewrite Forall_forall in F. auto.
  - inversion H as [| | | |? ? I|]; subst; [|contradiction]. cbn. constructor. intros k x X. apply in_map_iff in X.
    destruct X as ([k' y] & [= <- <-] & Y). rewrite Forall_forall in F. apply (F (k', y) Y). eauto.
Qed.

Definition resolved_entries (es : list (string * expr)) : Prop := forall k e, In (k, e) es -> resolved 0 e.

Lemma let_resolved es : resolved_entries es -> resolved 0 (default_let es).
Proof.
  intros H. unfold default_let. constructor. intros k x X. apply in_map_iff in X. destruct X as ([k' y] & [= <- <-] & Y).
  apply close_resolved. eauto.
Qed.

Lemma position_nth n names i : position n names = Some i -> nth_error names i = Some n.
Proof.
  revert i; induction names as [|m names IH]; intros i E; cbn in E; [discriminate|].
  destruct (String.eqb_spec n m) as [->|_]; [now injection E as <-|].
  destruct (position n names) as [j|]; [|discriminate]. injection E as <-. cbn. now apply IH.
Qed.

Lemma position_some n names : In n names -> exists i, position n names = Some i.
Proof.
  induction names as [|m names IH]; intros I; [destruct I|]. cbn. destruct (String.eqb_spec n m) as [->|N]; [now exists 0|].
  destruct I as [->|I]; [congruence|]. destruct (IH I) as [i ->]. now exists (S i).
Qed.

Lemma position_none n names : ~ In n names -> position n names = None.
Proof.
  induction names as [|m names IH]; intros I; [reflexivity|]. cbn. destruct (String.eqb_spec n m) as [->|N].
  - exfalso. apply I. now left.
  - rewrite IH; [reflexivity|]. intros X. apply I. now right.
Qed.

Section Resolving.

Variable is_timestamp : string -> bool.
Variable normalize : string -> string.
Variable in_range : string -> bool.
Variable parse_eu parse_eu_fn : string -> option (list string).
Variable data_only : bool.
Notation convert := (convert_scalar is_timestamp normalize in_range parse_eu parse_eu_fn data_only).

Lemma resolved_number s e : number in_range s = Some e -> resolved 0 e.
Proof. unfold number. destruct (_ && _); [|discriminate]. intros [= <-]. now apply resolved_other. Qed.

Lemma resolved_of_code s o e : code s o = Some e -> resolved 0 e.
Proof.
  destruct o as [ns|]; [|discriminate]. intros [= <-]. constructor. intros x b I. apply in_map_iff in I.
  destruct I as (n & E & _). discriminate.
Qed.

Lemma convert_resolved t p tg e : convert t p tg = Some e -> resolved 0 e.
Proof.
  unfold convert_scalar. cbv zeta.
  destruct (match match tg with Some t0 => from_token_type t0 | None => None end with Some t0 => t0 | None => _ end) as [| | | | | |c];
    try (intros [= <-]; now apply resolved_other); try apply resolved_number.
  - intros [= <-]. destruct data_only; now apply resolved_other.
  - destruct (String.eqb c "eu"); [destruct data_only; [intros [= <-]; now apply resolved_other|apply resolved_of_code]|].
    destruct (String.eqb c "eu::fn"); [destruct data_only; [intros [= <-]; now apply resolved_other|apply resolved_of_code]|].
    destruct (String.eqb c "eu::suppress"); intros [= <-]; constructor; now apply resolved_other.
Qed.

Definition sound (m : anchors) : Prop := forall i e, m i = Some e -> resolved 0 e.

Lemma sound_bind m a e : sound m -> resolved 0 e -> sound (bind a e m).
Proof.
  intros G U. destruct a as [|a]; [exact G|]. intros j x. unfold bind.
  destruct (Nat.eqb j (S a)); [intros [= <-]; exact U|apply G].
Qed.

Definition all_explicit (items : list item) : Prop :=
  forall i, In i items -> exists k v, i = Explicit k v /\ resolved 0 v.

Lemma explicit_entries items : all_explicit items -> resolved_entries (block_of items).
Proof.
  unfold block_of. generalize (@nil item). induction items as [|i items IH]; intros before A k e I; [destruct I|].
  cbn [combine] in I. apply in_app_or in I. destruct (A i (or_introl eq_refl)) as (k' & v & -> & R).
  destruct I as [I|I].
  - destruct (explicit_in k' items); [destruct I|]. destruct I as [[= <- <-]|[]]. exact R.
  - apply (IH (before ++ [Explicit k' v])) in I; [exact I|]. intros j J. apply A. now right.
Qed.

Lemma denote_resolved n : no_merge n -> forall m e m', sound m -> denote convert m n = Some (e, m') -> resolved 0 e /\ sound m'.
Proof.
  induction n as [t p a tg|a|a l F|a l F] using node_ind'; intros NM m e m' G D.
  - cbn in D. destruct (convert t p tg) as [x|] eqn:C; [|discriminate]. injection D as <- <-.
    apply convert_resolved in C. split; [exact C|now apply sound_bind].
  - cbn in D. destruct (m a) as [x|] eqn:M; [|discriminate]. injection D as <- <-. split; [now apply (G a)|exact G].
  - rewrite denote_seq in D.
    assert (S : forall l m es m', Forall (fun n => no_merge n -> forall m e m', sound m -> denote convert m n = Some (e, m') -> resolved 0 e /\ sound m') l ->
              fold_right (fun x P => no_merge x /\ P) True l -> sound m ->
              dseq is_timestamp normalize in_range parse_eu parse_eu_fn data_only m l = Some (es, m') ->
              (forall e, In e es -> resolved 0 e) /\ sound m').
    { clear. induction l as [|x l IH]; intros m es m' F N G D; cbn in D.
      - injection D as <- <-. split; [intros e []|exact G].
      - inversion F as [|? ? Hx Hl]; subst. destruct N as [Nx Nl].
        destruct (denote convert m x) as [[e m1]|] eqn:DX; [|discriminate].
        destruct (Hx Nx _ _ _ G DX) as [Re G1].
        destruct (dseq _ _ _ _ _ _ m1 l) as [[es' m2]|] eqn:DL; [|discriminate]. injection D as <- <-.
        destruct (IH _ _ _ Hl Nl G1 DL) as [Rl G2]. split; [|exact G2]. intros y [<-|Y]; auto. }
    destruct (dseq _ _ _ _ _ _ m l) as [[es m1]|] eqn:DS; [|discriminate]. injection D as <- <-.
    destruct (S l m es m1 F NM G DS) as [R G1].
    assert (resolved 0 (EList es)) by now constructor. split; [assumption|now apply sound_bind].
  - rewrite denote_map in D.
    assert (S : forall l m is m', Forall (fun n => no_merge (snd n) -> forall m e m', sound m -> denote convert m (snd n) = Some (e, m') -> resolved 0 e /\ sound m') l ->
              fold_right (fun e P => (fst (fst e) <> "<<" /\ no_merge (snd e)) /\ P) True l -> sound m ->
              dmap is_timestamp normalize in_range parse_eu parse_eu_fn data_only m l = Some (is, m') ->
              all_explicit is /\ sound m').
    { clear. induction l as [|[[k q] x] l IH]; intros m is m' F N G D; cbn in D.
      - injection D as <- <-. split; [intros e []|exact G].
      - inversion F as [|? ? Hx Hl]; subst. destruct N as [[Nk Nx] Nl]. cbn in Nk, Nx, Hx.
        destruct (denote convert m x) as [[e m1]|] eqn:DX; [|discriminate].
        destruct (Hx Nx _ _ _ G DX) as [Re G1]. apply String.eqb_neq in Nk. rewrite Nk in D.
        destruct (dmap _ _ _ _ _ _ m1 l) as [[is' m2]|] eqn:DL; [|discriminate]. injection D as <- <-.
        destruct (IH _ _ _ Hl Nl G1 DL) as [Rl G2]. split; [|exact G2].
        intros y [<-|Y]; [now exists k, e|auto]. }
    destruct (dmap _ _ _ _ _ _ m l) as [[is m1]|] eqn:DS; [|discriminate]. cbv zeta in D. injection D as <- <-.
    destruct (S l m is m1 F NM G DS) as [R G1].
    assert (resolved 0 (default_let (block_of is))) by now apply let_resolved, explicit_entries.
    split; [assumption|now apply sound_bind].
Qed.

End Resolving.
