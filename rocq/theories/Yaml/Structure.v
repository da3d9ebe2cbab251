From Coq Require Import String List NArith Bool Ascii Lia.
From Verif Require Import Yaml.Model Yaml.Spec.
Import ListNotations.
Open Scope string_scope.
Open Scope list_scope.

(** ** Induction over expressions and documents *)

Section ExprInd.
Variable P : expr -> Prop.
Hypothesis Pother : forall e,
  (match e with EList _ | EBlock _ | Tagged _ _ | Suppressed _ => False | _ => True end) -> P e.
Hypothesis Ptagged : forall e t, P e -> P (Tagged e t).
Hypothesis Psuppressed : forall e, P e -> P (Suppressed e).
Hypothesis Plist : forall l, Forall P l -> P (EList l).
Hypothesis Pblock : forall es, Forall (fun e => P (snd e)) es -> P (EBlock es).
Fixpoint expr_ind' (e : expr) : P e.
Proof.
  destruct e; try (apply Pother; exact Logic.I).
  - apply Ptagged, expr_ind'.
  - apply Psuppressed, expr_ind'.
  - apply Plist. induction l as [|x l IH]; constructor; [apply expr_ind'|exact IH].
  - apply Pblock. induction entries as [|[k x] l IH]; constructor; [apply expr_ind'|exact IH].
Defined.
End ExprInd.

Section NodeInd.
Variable P : node -> Prop.
Hypothesis Pscalar : forall t p a tg, P (NScalar t p a tg).
Hypothesis Palias : forall a, P (NAlias a).
Hypothesis Pseq : forall a l, Forall P l -> P (NSeq a l).
Hypothesis Pmap : forall a l, Forall (fun e => P (snd e)) l -> P (NMap a l).
Fixpoint node_ind' (n : node) : P n.
Proof.
  destruct n as [t p a tg|a l|a l|a].
  - apply Pscalar.
  - apply Pseq. induction l as [|x l IH]; constructor; [apply node_ind'|exact IH].
  - apply Pmap. induction l as [|[k x] l IH]; constructor; [apply node_ind'|exact IH].
  - apply Palias.
Defined.
End NodeInd.

(** ** Blocks *)

Lemma explicit_app k a b : explicit_in k (a ++ b) = explicit_in k a || explicit_in k b.
Proof. apply existsb_app. Qed.
Lemma merged_app k a b : merged_in k (a ++ b) = merged_in k a || merged_in k b.
Proof. apply existsb_app. Qed.
Lemma has_key_app k a b : has_key k (a ++ b) = has_key k a || has_key k b.
Proof. apply existsb_app. Qed.

Lemma filter_filter {A} (p q : A -> bool) l : filter p (filter q l) = filter (fun x => q x && p x) l.
Proof.
  induction l as [|x l IH]; [reflexivity|]. cbn. destruct (q x); cbn; [|exact IH]. destruct (p x); now rewrite IH.
Qed.

Lemma filter_ext' {A} (p q : A -> bool) l : (forall x, p x = q x) -> filter p l = filter q l.
Proof. intros H. apply filter_ext. exact H. Qed.

Lemma combine_explicit items k v : forall before,
  combine before (items ++ [Explicit k v]) =
  filter (fun e => negb (String.eqb k (fst e))) (combine before items) ++ [(k, v)].
Proof.
  induction items as [|i items IH]; intros before; [reflexivity|].
  cbn [app combine]. rewrite IH, filter_app, <- app_assoc. f_equal. destruct i as [k' v'|es].
  - rewrite explicit_app. cbn [explicit_in existsb]. rewrite orb_false_r.
    destruct (explicit_in k' items); [reflexivity|]. cbn [orb]. cbn [filter fst].
    rewrite String.eqb_sym. destruct (String.eqb k k'); reflexivity.
  - rewrite filter_filter. apply filter_ext'. intros e. rewrite app_assoc, explicit_app.
    cbn [explicit_in existsb]. rewrite orb_false_r, (String.eqb_sym (fst e) k).
    destruct (explicit_in (fst e) (before ++ items)), (merged_in (fst e) before), (String.eqb k (fst e)); reflexivity.
Qed.

Lemma combine_merge items es : forall before,
  combine before (items ++ [Merge es]) =
  combine before items ++
  filter (fun e => negb (explicit_in (fst e) (before ++ items)) && negb (merged_in (fst e) (before ++ items))) es.
Proof.
  induction items as [|i items IH]; intros before.
  - cbn [app combine]. rewrite !app_nil_r. reflexivity.
  - cbn [app combine]. rewrite IH, <- !app_assoc. cbn [app]. f_equal. destruct i as [k' v'|es'].
    + rewrite explicit_app. cbn [explicit_in existsb]. now rewrite !orb_false_r.
    + apply filter_ext'. intros e. rewrite app_assoc, (explicit_app _ (before ++ items)). cbn [explicit_in existsb].
      now rewrite !orb_false_r.
Qed.

Lemma has_key_filter k p l : has_key k (filter (fun e : string * expr => p (fst e)) l) = has_key k l && p k.
Proof.
  induction l as [|[k' v] l IH]; [reflexivity|]. cbn [filter fst has_key existsb].
  destruct (String.eqb_spec k k') as [->|N].
  - destruct (p k') eqn:P; cbn [has_key existsb fst]; [now rewrite String.eqb_refl|].
    fold (has_key k' (filter (fun e => p (fst e)) l)). rewrite IH. now rewrite andb_false_r.
  - destruct (p k'); cbn [has_key existsb fst]; [apply String.eqb_neq in N; rewrite N|]; exact IH.
Qed.

Lemma block_explicit items k v : block_of (items ++ [Explicit k v]) = replace (block_of items) (k, v).
Proof. apply combine_explicit. Qed.

Lemma block_keys items k : has_key k (block_of items) = explicit_in k items || merged_in k items.
Proof.
  induction items as [|i items IH] using rev_ind; [reflexivity|].
  rewrite explicit_app, merged_app. destruct i as [k' v|es].
  - rewrite block_explicit. unfold replace. cbn [fst].
    rewrite has_key_app, (has_key_filter k (fun x => negb (String.eqb k' x))), IH.
    cbn. rewrite !orb_false_r, (String.eqb_sym k' k). destruct (String.eqb k k'), (explicit_in k items), (merged_in k items); reflexivity.
  - unfold block_of in *. rewrite combine_merge. cbn [app].
    rewrite has_key_app, IH, (has_key_filter k (fun x => negb (explicit_in x items) && negb (merged_in x items))).
    cbn [explicit_in merged_in existsb]. fold (has_key k es).
    rewrite !orb_false_r. destruct (explicit_in k items), (merged_in k items), (has_key k es); reflexivity.
Qed.

Lemma merge_into_filter new : forall es, NoDup (map fst new) ->
  merge_into es new = es ++ filter (fun e => negb (has_key (fst e) es)) new.
Proof.
  unfold merge_into. induction new as [|[k v] new IH]; intros es N; [cbn; now rewrite app_nil_r|].
  cbn [map fst] in N. inversion N as [|? ? Nk N']; subst. cbn [fold_left filter fst].
  destruct (has_key k es) eqn:H; cbn [negb]; [now apply IH|].
  rewrite IH by exact N'. rewrite <- app_assoc. cbn [app]. f_equal. f_equal.
  apply filter_ext_in. intros [k' v'] I. cbn [fst]. rewrite has_key_app. cbn. rewrite orb_false_r.
  destruct (String.eqb_spec k' k) as [->|_]; [|now rewrite orb_false_r].
  exfalso. apply Nk. apply (in_map fst) in I. exact I.
Qed.

Lemma block_merge items es : NoDup (map fst es) ->
  block_of (items ++ [Merge es]) = merge_into (block_of items) es.
Proof.
  intros N. rewrite merge_into_filter by exact N. unfold block_of at 1. rewrite combine_merge. cbn [app]. f_equal.
  apply filter_ext'. intros e. rewrite block_keys. apply eq_sym, negb_orb.
Qed.

Lemma replace_nodup es e : NoDup (map fst es) -> NoDup (map fst (replace es e)).
Proof.
  intros N. unfold replace. rewrite map_app. cbn [map].
  assert (N1 : NoDup (map fst (filter (fun e' => negb (String.eqb (fst e) (fst e'))) es))).
  { clear -N. induction es as [|x es IH]; [exact N|]. cbn [map] in N. inversion N as [|? ? Nx N']; subst.
    cbn [filter]. destruct (negb (String.eqb (fst e) (fst x))); [|now apply IH]. cbn [map]. constructor; [|now apply IH].
    intros I. apply Nx. apply in_map_iff in I. destruct I as (y & Ey & I). apply filter_In in I. rewrite <- Ey. apply in_map, I. }
  apply (NoDup_Add (a := fst e) (l := map fst (filter (fun e' => negb (String.eqb (fst e) (fst e'))) es))).
  - rewrite <- (app_nil_r (map fst (filter _ es))) at 1. apply Add_app.
  - split; [exact N1|]. intros I. apply in_map_iff in I. destruct I as (y & Ey & I). apply filter_In in I.
    destruct I as [_ I]. rewrite Ey, String.eqb_refl in I. discriminate.
Qed.

Lemma fold_replace_nodup new : forall es, NoDup (map fst es) -> NoDup (map fst (fold_left replace new es)).
Proof. induction new as [|e new IH]; intros es N; [exact N|]. cbn. apply IH. now apply replace_nodup. Qed.

Lemma merge_nodup new : forall es, NoDup (map fst es) -> NoDup (map fst (merge_into es new)).
Proof.
  unfold merge_into. induction new as [|e new IH]; intros es N; [exact N|]. cbn. apply IH.
  destruct (has_key (fst e) es) eqn:H; [exact N|]. rewrite map_app. cbn [map].
  apply (NoDup_Add (a := fst e) (l := map fst es)).
  - rewrite <- (app_nil_r (map fst es)) at 1. apply Add_app.
  - split; [exact N|]. intros I. apply in_map_iff in I. destruct I as (y & Ey & I).
    assert (has_key (fst e) es = true) as H'; [|congruence].
    apply existsb_exists. exists y. split; [exact I|]. now rewrite Ey, String.eqb_refl.
Qed.

(** ** What can be merged *)

Definition go_extract := fix go (l : list expr) (acc : list (string * expr)) : option (list (string * expr)) :=
  match l with
  | [] => Some acc
  | x :: r => match extract x with Some es => go r (fold_left replace es acc) | None => None end
  end.

Lemma go_extract_spec l : forall acc, go_extract l acc =
  option_map (fun ess => fold_left replace (concat ess) acc) (traverse extract l).
Proof.
  induction l as [|x l IH]; intros acc; [reflexivity|]. cbn [go_extract]. cbn [traverse].
  destruct (extract x) as [es|]; [|reflexivity]. rewrite IH. fold (traverse extract l).
  destruct (traverse extract l) as [ess|]; [|reflexivity]. cbn. now rewrite fold_left_app.
Qed.

Lemma block_explicits xs : block_of (map (fun e => Explicit (fst e) (snd e)) xs) = fold_left replace xs [].
Proof.
  induction xs as [|[k v] xs IH] using rev_ind; [reflexivity|].
  rewrite map_app, fold_left_app. cbn [map fst snd fold_left]. now rewrite block_explicit, IH.
Qed.

Lemma extract_mergeable e : extract e = mergeable e.
Proof.
  induction e as [e O|e t _|e _|l F|es F] using expr_ind'; try (destruct e; try contradiction O; reflexivity); try reflexivity.
  change (extract (EList l)) with (go_extract l []). cbn [mergeable]. rewrite go_extract_spec.
  assert (T : traverse extract l = every mergeable l).
  { induction F as [|x l H _ IH]; [reflexivity|]. cbn [traverse]. fold (traverse extract l). fold (every mergeable l).
    now rewrite H, IH. }
  rewrite T. destruct (every mergeable l) as [ess|]; [|reflexivity]. cbn. now rewrite block_explicits.
Qed.

Definition unique (e : expr) : Prop := match extract e with Some es => NoDup (map fst es) | None => True end.

Lemma unique_list l : unique (EList l).
Proof.
  unfold unique. change (extract (EList l)) with (go_extract l []). rewrite go_extract_spec.
  destruct (traverse extract l); cbn; [|exact Logic.I]. apply fold_replace_nodup. constructor.
Qed.

Lemma default_let_keys es : map fst (map (fun '(k, x) => (k, close (map fst es) 0 x)) es) = map fst es.
Proof. rewrite map_map. apply map_ext. intros [k x]. reflexivity. Qed.

Lemma unique_let es : NoDup (map fst es) -> unique (default_let es).
Proof. intros N. unfold unique, default_let. cbn [extract]. now rewrite default_let_keys. Qed.

(** ** Documents *)

Section Reading.

Variable is_timestamp : string -> bool.
Variable normalize : string -> string.
Variable in_range : string -> bool.
Variable parse_eu parse_eu_fn : string -> option (list string).
Variable data_only : bool.

Notation convert := (convert_scalar is_timestamp normalize in_range parse_eu parse_eu_fn data_only).
Notation step := (on_event is_timestamp normalize in_range parse_eu parse_eu_fn data_only).
Notation denote := (denote convert).

Lemma failed evs : fold_left step evs Failed = Failed.
Proof. induction evs; auto. Qed.

Definition dseq := fix seq (m : anchors) (l : list node) : option (list expr * anchors) :=
  match l with
  | [] => Some ([], m)
  | x :: r => match denote m x with
              | Some (e, m) => match seq m r with Some (es, m) => Some (e :: es, m) | None => None end
              | None => None
              end
  end.

Definition dmap := fix map (m : anchors) (l : list (string * (bool * nat * option (string * string)) * node))
    : option (list item * anchors) :=
  match l with
  | [] => Some ([], m)
  | (k, _, x) :: r =>
    match denote m x with
    | Some (e, m) =>
      match (if String.eqb k "<<" then option_map Merge (mergeable e) else Some (Explicit k e)) with
      | Some i => match map m r with Some (is, m) => Some (i :: is, m) | None => None end
      | None => None
      end
    | None => None
    end
  end.

Lemma denote_seq m a l : denote m (NSeq a l) =
  match dseq m l with Some (es, m) => Some (EList es, bind a (EList es) m) | None => None end.
Proof. reflexivity. Qed.

Lemma denote_map m a l : denote m (NMap a l) =
  match dmap m l with
  | Some (items, m) => let e := default_let (block_of items) in Some (e, bind a e m)
  | None => None
  end.
Proof. reflexivity. Qed.

Definition good (m : anchors) : Prop := forall i e, m i = Some e -> unique e.

Lemma good_bind m a e : good m -> unique e -> good (bind a e m).
Proof.
  intros G U. destruct a as [|a]; [exact G|]. intros j x. unfold bind.
  destruct (Nat.eqb j (S a)); [intros [= <-]; exact U|apply G].
Qed.

Lemma put_bind a e m : put (anchor_of a) e m = bind a e m.
Proof. destruct a; reflexivity. Qed.

Lemma number_scalar s e : number in_range s = Some e -> extract e = None.
Proof. unfold number. destruct (_ && _); [|discriminate]. intros [= <-]. reflexivity. Qed.

Lemma code_scalar s o e : code s o = Some e -> extract e = None.
Proof. destruct o; [|discriminate]. intros [= <-]. reflexivity. Qed.

Lemma convert_unique t p tg e : convert t p tg = Some e -> unique e.
Proof.
  intros H. unfold unique. enough (extract e = None) as -> by exact Logic.I. revert H. unfold convert_scalar. cbv zeta.
  destruct (match match tg with Some t0 => from_token_type t0 | None => None end with Some t0 => t0 | None => _ end) as [| | | | | |c];
    try (intros [= <-]; reflexivity); try apply number_scalar.
  - intros [= <-]. destruct data_only; reflexivity.
  - destruct (String.eqb c "eu"); [destruct data_only; [intros [= <-]; reflexivity|apply code_scalar]|].
    destruct (String.eqb c "eu::fn"); [destruct data_only; [intros [= <-]; reflexivity|apply code_scalar]|].
    destruct (String.eqb c "eu::suppress"); intros [= <-]; reflexivity.
Qed.

Definition value_place (stack : list expectation) : Prop := match stack with Even _ _ :: _ => False | _ => True end.

Definition reads_right (n : node) : Prop := forall stack m, value_place stack -> good m ->
  fold_left step (events n) (Running stack m) =
    match denote m n with Some (e, m') => fed stack m' e | None => Failed end /\
  (forall e m', denote m n = Some (e, m') -> unique e /\ good m').

Lemma seq_right l : Forall reads_right l -> forall acc a stack m, good m ->
  fold_left step (flat_map events l) (Running (Listing acc a :: stack) m) =
    match dseq m l with Some (es, m') => Running (Listing (acc ++ es) a :: stack) m' | None => Failed end /\
  (forall es m', dseq m l = Some (es, m') -> good m').
Proof.
  induction 1 as [|x l H _ IH]; intros acc a stack m G.
  - cbn. rewrite app_nil_r. split; [reflexivity|]. intros es m' [= <- <-]. exact G.
  - cbn [flat_map dseq]. rewrite fold_left_app.
    destruct (H (Listing acc a :: stack) m Logic.I G) as [R U]. rewrite R.
    destruct (denote m x) as [[e m1]|]; [|rewrite failed; split; [reflexivity|discriminate]].
    destruct (U e m1 eq_refl) as [_ G1]. unfold fed. cbn [feed].
    destruct (IH (acc ++ [e]) a stack m1 G1) as [R2 G2]. rewrite R2.
    destruct (dseq m1 l) as [[es m2]|]; [|split; [reflexivity|discriminate]].
    rewrite <- app_assoc. split; [reflexivity|]. intros es' m' [= <- <-]. now apply (G2 es).
Qed.

Lemma map_right l : Forall (fun e => reads_right (snd e)) l -> forall items a stack m, good m ->
  NoDup (map fst (block_of items)) ->
  fold_left step (flat_map (fun '(k, (p, ka, tg), x) => Scalar k p ka tg :: events x) l)
    (Running (Even (block_of items) a :: stack) m) =
    match dmap m l with
    | Some (more, m') => Running (Even (block_of (items ++ more)) a :: stack) m'
    | None => Failed
    end /\
  (forall more m', dmap m l = Some (more, m') -> good m' /\ NoDup (map fst (block_of (items ++ more)))).
Proof.
  induction 1 as [|[[k [[p ka] tg]] x] l H _ IH]; intros items a stack m G N.
  - cbn. rewrite app_nil_r. split; [reflexivity|]. intros es m' [= <- <-]. rewrite app_nil_r. auto.
  - cbn [flat_map dmap]. rewrite fold_left_app. cbn [fold_left app].
    change (step (Running (Even (block_of items) a :: stack) m) (Scalar k p ka tg))
      with (Running (Odd (block_of items) k a :: stack) m).
    cbn [snd] in H. destruct (H (Odd (block_of items) k a :: stack) m Logic.I G) as [R U]. rewrite R.
    destruct (denote m x) as [[e m1]|]; [|rewrite failed; split; [reflexivity|discriminate]].
    destruct (U e m1 eq_refl) as [Ue G1]. unfold fed. cbn [feed].
    destruct (String.eqb k "<<").
    + unfold unique in Ue. rewrite extract_mergeable in *.
      destruct (mergeable e) as [new|]; cbn [option_map]; [|rewrite failed; split; [reflexivity|discriminate]].
      rewrite <- block_merge by exact Ue.
      destruct (IH (items ++ [Merge new]) a stack m1 G1) as [R2 G2].
      { rewrite block_merge by exact Ue. now apply merge_nodup. }
      rewrite R2. destruct (dmap m1 l) as [[more m2]|]; [|split; [reflexivity|discriminate]].
      rewrite <- app_assoc. split; [reflexivity|]. intros more' m' [= <- <-].
      specialize (G2 more m2 eq_refl). rewrite <- app_assoc in G2. exact G2.
    + rewrite <- block_explicit.
      destruct (IH (items ++ [Explicit k e]) a stack m1 G1) as [R2 G2].
      { rewrite block_explicit. now apply replace_nodup. }
      rewrite R2. destruct (dmap m1 l) as [[more m2]|]; [|split; [reflexivity|discriminate]].
      rewrite <- app_assoc. split; [reflexivity|]. intros more' m' [= <- <-].
      specialize (G2 more m2 eq_refl). rewrite <- app_assoc in G2. exact G2.
Qed.

Lemma node_right n : reads_right n.
Proof.
  induction n as [t p a tg|a|a l F|a l F] using node_ind'; intros stack m V G.
  - cbn [events fold_left denote]. cbn [on_event].
    assert (S : match stack with
      | Even _ _ :: _ => fed stack m (Sym t)
      | _ => match convert t p tg with Some e => fed stack (put (anchor_of a) e m) e | None => Failed end
      end = match convert t p tg with Some e => fed stack (put (anchor_of a) e m) e | None => Failed end).
    { destruct stack as [|[] ?]; try reflexivity. contradiction V. }
    rewrite S. cbn [Spec.denote]. destruct (convert t p tg) as [e|] eqn:C; [|split; [reflexivity|discriminate]].
    rewrite put_bind. split; [reflexivity|]. intros e' m' [= <- <-].
    pose proof (convert_unique _ _ _ _ C). split; [assumption|now apply good_bind].
  - cbn [events fold_left Spec.denote]. cbn [on_event]. destruct (m a) as [e|] eqn:M; (split; [reflexivity|]); [|discriminate].
    intros e' m' [= <- <-]. split; [now apply (G a)|exact G].
  - cbn [events fold_left]. cbn [on_event]. rewrite denote_seq, fold_left_app.
    destruct (seq_right l F [] (anchor_of a) stack m G) as [R GG]. rewrite R.
    destruct (dseq m l) as [[es m']|]; [|rewrite failed; split; [reflexivity|discriminate]].
    cbn [app fold_left on_event]. rewrite put_bind. split; [reflexivity|]. intros e' m'' [= <- <-].
    split; [apply unique_list|]. apply good_bind; [now apply (GG es)|apply unique_list].
  - cbn [events fold_left]. cbn [on_event]. rewrite denote_map, fold_left_app.
    destruct (map_right l F [] (anchor_of a) stack m G (NoDup_nil _)) as [R GG].
    change (block_of []) with (@nil (string * expr)) in R. rewrite R.
    destruct (dmap m l) as [[items m']|]; [|rewrite failed; split; [reflexivity|discriminate]].
    cbn [app fold_left on_event]. rewrite put_bind. cbv zeta. split; [reflexivity|]. intros e' m'' [= <- <-].
    destruct (GG items m' eq_refl) as [G' N']. cbn [app] in N'.
    split; [now apply unique_let|]. apply good_bind; [exact G'|now apply unique_let].
Qed.

Theorem read_denotes n :
  read_yaml is_timestamp normalize in_range parse_eu parse_eu_fn data_only (events n) =
  match denote (fun _ => None) n with Some (e, _) => Read e | None => Refused end.
Proof.
  unfold read_yaml. destruct (node_right n [] (fun _ => None) Logic.I) as [R _]; [intros ? ? ?; discriminate|].
  rewrite R. destruct (denote _ n) as [[e m]|]; reflexivity.
Qed.

End Reading.
