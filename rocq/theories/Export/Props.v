(** * Properties of output *)

From Coq Require Import String List NArith ZArith Bool Lia.
From Verif Require Import Export.Model Export.Spec Export.Maps Export.Writing Export.Whole.
Import ListNotations.
Open Scope string_scope.
Open Scope list_scope.

(** ** C87: the document written shows the value *)

(** Partial: [regular] leaves out entries made from lists whose key or value is hidden or a
    function, and numbers in sets, vecs and arrays that are infinite or undefined.  The claim
    is refuted for those below. *)
Theorem C87_shown_partial f v : regular v -> visible v -> ~ unfit f v ->
  exists t, shows f v t /\ write_out f v = ([t], None).
Proof.
  intros G V U. destruct (outcome_all f v V G) as [(t & S & F)|[U' _]]; [|contradiction].
  exists t. split; [exact S|now apply feeds_written].
Qed.

(** A hidden value leaves an empty document. *)
Theorem C87_hidden f v : hidden v -> write_out f v = ([Map None []], None).
Proof. apply hidden_written. Qed.

Definition supp : meta := mkMeta (Some "suppress") None.
Definition sym (s : string) : value := VAtom [] (Sym s).
Definition str (s : string) : value := VAtom [] (Str s).
Definition int (z : Z) : value := VAtom [] (Num (Int z)).

(** Refuted: block([[:a, 1 // {export: :suppress}], [:b, "x"]]) writes an empty document, so
    that hiding [a] loses [b]. *)
Theorem C87_lost_refuted : exists items v,
  looked_up "b" items = Some v /\ visible v /\ shows Json v (Leaf None (SText "x")) /\
  (forall l, In (KvList l) items -> exists k w, l = [k; w] /\ (hidden w \/ regular w)) /\
  write_out Json (VBlock [] items) = ([Map None []], None).
Proof.
  exists [KvList [sym "a"; VAtom [supp] (Num (Int 1))]; KvList [sym "b"; str "x"]], (str "x").
  split; [reflexivity|]. split; [intros (m & r & E & _); discriminate E|].
  split; [apply (shows_atom Json [] (Str "x")); intros _ z E; discriminate E|].
  split; [|reflexivity].
  intros l [E|[E|[]]]; injection E as <-.
  - exists (sym "a"), (VAtom [supp] (Num (Int 1))). split; [reflexivity|]. left. exists supp, []. split; [reflexivity|now left].
  - exists (sym "b"), (str "x"). split; [reflexivity|]. right. constructor.
Qed.

(** Refuted: with a third such entry the hidden name comes out, with the next name as its value. *)
Theorem C87_leaked_refuted : exists items,
  (forall v, looked_up "a" items = Some v -> hidden v) /\
  write_out Json (VBlock [] items) =
    ([Map None [(Leaf None (SText "a"), Leaf None (SText "b")); (Leaf None (SText "x"), Leaf None (SText "c"))]], None).
Proof.
  exists [KvList [sym "a"; VAtom [supp] (Num (Int 1))]; KvList [sym "b"; str "x"];
          KvList [sym "c"; VAtom [supp] (Num (Int 2))]].
  split; [|reflexivity]. intros v E. injection E as <-. exists supp, []. split; [reflexivity|now left].
Qed.

(** Refuted: a function is left out of a block, but not out of the same block made from a list. *)
Theorem C87_function_refuted : exists k v,
  is_function v /\
  write_out Json (VBlock [] [Pair (Sym k) v]) = ([Map None []], None) /\
  write_out Json (VBlock [] [KvList [sym k; v]]) = ([], Some NotScalar).
Proof. exists "f", (VFun []). split; [now exists []|split; reflexivity]. Qed.

(** Refuted: an infinite element of an array is written as zero. *)
Theorem C87_infinite_refuted : exists bits,
  ~ is_number bits /\
  write_out Json (VNative [] (NArray (Rows [Cell bits]))) = ([Seq None [Leaf None (SInt 0)]], None).
Proof.
  exists (N.shiftl 2047 52). split; [|reflexivity]. rewrite is_number_finite. vm_compute. discriminate.
Qed.

(** ** C88: a document is written whole or not at all *)

(** Whatever the value, there is one document and no failure, or a failure and no document. *)
Theorem C88_whole f v :
  (exists t, write_out f v = ([t], None)) \/ (exists x, write_out f v = ([], Some x)).
Proof. apply written_whole. Qed.

(** ** C89: refused exactly when the format cannot carry it *)

Theorem C89_refused f v : regular v -> visible v -> (unfit f v <-> exists x, write_out f v = ([], Some x)).
Proof.
  intros G V. destruct (outcome_all f v V G) as [(t & S & F)|[U R]].
  - split.
    + intros U. exfalso. exact (proj1 (shows_fit f) v t S U).
    + intros (x & E). rewrite (feeds_written f v t F) in E. discriminate E.
  - split; [intros _; now apply refused_written|auto].
Qed.

(** ** C90: tags *)

Definition can_be_tagged (v : value) : Prop :=
  match v with VAtom _ _ | VList _ _ _ | VBlock _ _ => True | _ => False end.

(** Partial: numbers, strings, symbols, datetimes, lists and blocks keep the tag of their
    outermost metadata in YAML.  The full claim is that every value keeps its tag; it is refuted
    below. *)
Theorem C90_tagged_partial v m r s : regular v -> visible v -> ~ unfit Yaml v -> can_be_tagged v ->
  metas v = m :: r -> tag m = Some (TagStr s) ->
  exists t, write_out Yaml v = ([t], None) /\ tree_tag t = Some s.
Proof.
  intros G V U C E T. destruct (C87_shown_partial Yaml v G V U) as (t & S & W). exists t. split; [exact W|].
  destruct m as [e g]. cbn [tag] in T. subst g.
  inversion S; subst; try contradiction; cbn [metas] in E; subst; reflexivity.
Qed.

(** Refuted: a boolean, a null and a set lose their tag. *)
Theorem C90_plain_refuted : forall s,
  let m := [mkMeta None (Some (TagStr s))] in
  write_out Yaml (VBool m true) = ([Leaf None (SBool true)], None) /\
  write_out Yaml (VUnit m) = ([Leaf None SNull], None) /\
  write_out Yaml (VNative m (NSet [EStr "a"])) = ([Seq None [Leaf None (SText "a")]], None).
Proof. intros s. repeat split. Qed.

(** Refuted: so does a value with further metadata put on top, and one whose tag is a symbol. *)
Theorem C90_layer_refuted : forall s,
  write_out Yaml (VAtom [mkMeta None None; mkMeta None (Some (TagStr s))] (Str "x")) = ([Leaf None (SText "x")], None) /\
  write_out Yaml (VAtom [mkMeta None (Some TagOther)] (Str "x")) = ([Leaf None (SText "x")], None).
Proof. intros s. split; reflexivity. Qed.

(** ** C91: the keys of the document are those of the block *)

Lemma looked_up_entry f items ps : shows_entries f items ps -> forall k v,
  looked_up k items = Some v -> visible v -> ~ is_function v ->
  exists g t, shows f v t /\ In (Leaf g (SText k), t) ps.
Proof.
  induction 1 as [|x w r ps H S IH|x s w t r ps T Vw Sw S IH|x w t r ps Y L Vw Sw S IH
                 |x s w t r ps N T Vx Vw Sw S IH|x tx w t r ps Y Sx Vx Vw Sw S IH]; intros k v E V NF.
  - discriminate E.
  - cbn [looked_up entry_key entry_value] in E. destruct x as [n|s|s|m]; try exact (IH k v E V NF).
    destruct (String.eqb s k); [|exact (IH k v E V NF)]. injection E as <-. destruct H; contradiction.
  - assert (R : looked_up k r = Some v -> exists g t0, shows f v t0 /\ In (Leaf g (SText k), t0) ((Leaf None (SText s), t) :: ps)).
    { intros E'. destruct (IH k v E' V NF) as (g & t0 & A & B). exists g, t0. split; [exact A|now right]. }
    cbn [looked_up entry_key entry_value] in E. destruct x as [n|s'|s'|m]; try exact (R E).
    destruct (String.eqb s' k) eqn:K; [|exact (R E)]. apply String.eqb_eq in K. injection E as <-.
    destruct T as [T|T]; [|discriminate T]. injection T as ->. subst. exists None, t. split; [exact Sw|now left].
  - assert (R : looked_up k r = Some v -> exists g t0, shows f v t0 /\ In (Leaf g (SText k), t0) ((Leaf None (leaf f x), t) :: ps)).
    { intros E'. destruct (IH k v E' V NF) as (g & t0 & A & B). exists g, t0. split; [exact A|now right]. }
    cbn [looked_up entry_key entry_value] in E. destruct x as [n|s'|s'|m]; try exact (R E).
    destruct (String.eqb s' k) eqn:K; [|exact (R E)]. apply String.eqb_eq in K. injection E as <-. subst.
    exists None, t. split; [exact Sw|now left].
  - assert (R : looked_up k r = Some v -> exists g t0, shows f v t0 /\ In (Leaf g (SText k), t0) ((Leaf None (SText s), t) :: ps)).
    { intros E'. destruct (IH k v E' V NF) as (g & t0 & A & B). exists g, t0. split; [exact A|now right]. }
    destruct T as (ms & a & T & [-> | ->]); cbn [looked_up entry_key entry_value] in E; [|exact (R E)].
    destruct a as [n|s'|s'|m]; try exact (R E).
    destruct (String.eqb s' k) eqn:K; [|exact (R E)]. apply String.eqb_eq in K. injection E as <-.
    destruct T as [T|T]; [|discriminate T]. injection T as ->. subst. exists None, t. split; [exact Sw|now left].
  - assert (R : looked_up k r = Some v -> exists g t0, shows f v t0 /\ In (Leaf g (SText k), t0) ((tx, t) :: ps)).
    { intros E'. destruct (IH k v E' V NF) as (g & t0 & A & B). exists g, t0. split; [exact A|now right]. }
    cbn [looked_up entry_key entry_value] in E. destruct x as [| |ms a| | | | |]; try exact (R E).
    destruct a as [n|s'|s'|m]; try exact (R E).
    destruct (String.eqb s' k) eqn:K; [|exact (R E)]. apply String.eqb_eq in K. injection E as <-. subst s'.
    inversion Sx; subst. exists (shown_tag Yaml ms), t. split; [exact Sw|now left].
Qed.

(** Partial: where no two entries show the same key, what the language finds under a key is what
    the document has there.  The full claim has no such condition; it is refuted below. *)
Theorem C91_found_partial f ms items : regular (VBlock ms items) -> visible (VBlock ms items) ->
  ~ unfit f (VBlock ms items) ->
  exists ps g ps', shows_entries f items ps /\ write_out f (VBlock ms items) = ([Map g ps'], None) /\
    (NoDup (map fst ps) -> forall k v, looked_up k items = Some v -> visible v -> ~ is_function v ->
     exists g' t, shows f v t /\ In (Leaf g' (SText k), t) ps').
Proof.
  intros G V U. destruct (C87_shown_partial f _ G V U) as (t & S & W). inversion S as [| | | | | | | |? ? ps ps' Se Ar]; subst.
  exists ps, (shown_tag f ms), ps'. split; [exact Se|]. split; [exact W|].
  intros N k v E Vv NF. destruct (looked_up_entry f items ps Se k v E Vv NF) as (g' & t & Sv & I).
  exists g', t. split; [exact Sv|]. destruct f.
  - apply (last_wins _ _ _ Ar); [discriminate|]. now apply last_for_nodup.
  - rewrite (in_order _ _ _ Ar); [exact I|discriminate|exact N].
  - rewrite (in_order _ _ _ Ar); [exact I|discriminate|exact N].
  - now rewrite (all_kept _ _ _ Ar).
Qed.

(** Where keys do repeat, each is written once, with the last of its values. *)
Theorem C91_last f ms items : f <> Eu -> regular (VBlock ms items) -> visible (VBlock ms items) ->
  ~ unfit f (VBlock ms items) ->
  exists ps g ps', shows_entries f items ps /\ write_out f (VBlock ms items) = ([Map g ps'], None) /\
    NoDup (map fst ps') /\ forall k t, In (k, t) ps' <-> last_for k t ps.
Proof.
  intros N G V U. destruct (C87_shown_partial f _ G V U) as (t & S & W). inversion S as [| | | | | | | |? ? ps ps' Se Ar]; subst.
  exists ps, (shown_tag f ms), ps'. split; [exact Se|]. split; [exact W|]. split; [now apply (once _ _ _ Ar)|].
  now apply (last_wins _ _ _ Ar).
Qed.

(** The order of the block is kept, in all but JSON. *)
Theorem C91_order f ms items : f <> Json -> regular (VBlock ms items) -> visible (VBlock ms items) ->
  ~ unfit f (VBlock ms items) ->
  exists ps g ps', shows_entries f items ps /\ write_out f (VBlock ms items) = ([Map g ps'], None) /\
    (NoDup (map fst ps) -> ps' = ps).
Proof.
  intros N G V U. destruct (C87_shown_partial f _ G V U) as (t & S & W). inversion S as [| | | | | | | |? ? ps ps' Se Ar]; subst.
  exists ps, (shown_tag f ms), ps'. split; [exact Se|]. split; [exact W|]. now apply (in_order _ _ _ Ar).
Qed.

(** Refuted: block([[:a, 1], [:a, 2]]).a is 1, but the document says 2. *)
Theorem C91_first_refuted : exists items v t,
  regular (VBlock [] items) /\ looked_up "a" items = Some v /\
  write_out Json (VBlock [] items) = ([Map None [(Leaf None (SText "a"), t)]], None) /\
  ~ shows Json v t.
Proof.
  exists [KvList [sym "a"; int 1]; KvList [sym "a"; int 2]], (int 1), (Leaf None (SInt 2)).
  split.
  - constructor.
    + intros k v [E|[E|[]]]; discriminate E.
    + assert (Vis : forall a, visible (VAtom [] a)) by (intros a (m & r & E & _); discriminate E).
      intros l [E|[E|[]]]; injection E as <-.
      * exists (sym "a"), (int 1). split; [reflexivity|]. split; [apply Vis|]. split; [apply Vis|]. split; constructor.
      * exists (sym "a"), (int 2). split; [reflexivity|]. split; [apply Vis|]. split; [apply Vis|]. split; constructor.
  - split; [reflexivity|]. split; [reflexivity|]. intros S. inversion S.
Qed.

(** ** Cases that meet the hypotheses *)

Definition sample : value :=
  VBlock [] [Pair (Sym "b") (VList [mkMeta None (Some (TagStr "!set"))] [int 1; VAtom [supp] (Num (Int 9)); str "two"] true);
             Pair (Sym "f") (VFun []); Pair (Sym "s") (VAtom [supp] (Str "secret"));
             KvList [sym "a"; VBlock [] [Pair (Sym "t") (VBool [] true)]]].

Lemma visible_bare v : metas v = [] -> visible v.
Proof. intros E (m & r & E' & _). congruence. Qed.

Example C87_example : regular sample /\ visible sample /\ ~ unfit Toml sample /\
  write_out Yaml sample =
    ([Map None [(Leaf None (SText "b"), Seq (Some "!set") [Leaf None (SInt 1); Leaf None (SText "two")]);
                (Leaf None (SText "a"), Map None [(Leaf None (SText "t"), Leaf None (SBool true))])]], None) /\
  write_out Json sample =
    ([Map None [(Leaf None (SText "a"), Map None [(Leaf None (SText "t"), Leaf None (SBool true))]);
                (Leaf None (SText "b"), Seq None [Leaf None (SInt 1); Leaf None (SText "two")])]], None).
Proof.
  assert (G : regular sample).
  { constructor.
    - intros k v [E|[E|[E|[E|[]]]]]; try discriminate E; injection E as <- <-.
      + right. right. constructor. intros v [<-|[<-|[<-|[]]]]; [right; constructor| |right; constructor].
        left. exists supp, []. split; [reflexivity|now left].
      + right. left. now exists [].
      + left. exists supp, []. split; [reflexivity|now left].
    - intros l [E|[E|[E|[E|[]]]]]; try discriminate E. injection E as <-.
      eexists _, _. split; [reflexivity|]. split; [now apply visible_bare|]. split; [now apply visible_bare|].
      split; [constructor|]. constructor; [|intros l [E|[]]; discriminate E].
      intros k v [E|[]]. injection E as <- <-. right. right. constructor. }
  assert (V : visible sample) by now apply visible_bare.
  split; [exact G|]. split; [exact V|]. split; [|split; reflexivity].
  intros U. apply (C89_refused Toml sample G V) in U. destruct U as (x & E). vm_compute in E. discriminate E.
Qed.

Example C89_example : let v := VList [] [VUnit []] true in
  regular v /\ visible v /\ unfit Toml v /\ ~ unfit Json v /\
  write_out Toml v = ([], Some Unrepresentable).
Proof.
  assert (G : regular (VList [] [VUnit []] true)) by (constructor; intros v [<-|[]]; right; constructor).
  assert (V : visible (VList [] [VUnit []] true)) by now apply visible_bare.
  cbv zeta. split; [exact G|]. split; [exact V|]. split.
  - apply (unfit_list Toml [] [VUnit []] (VUnit [])); [now left|now apply visible_bare|now constructor].
  - split; [|reflexivity]. intros U. apply (C89_refused Json _ G V) in U. destruct U as (x & E). discriminate E.
Qed.

Print Assumptions C87_shown_partial.
Print Assumptions C87_hidden.
Print Assumptions C87_lost_refuted.
Print Assumptions C87_leaked_refuted.
Print Assumptions C87_function_refuted.
Print Assumptions C87_infinite_refuted.
Print Assumptions C88_whole.
Print Assumptions C89_refused.
Print Assumptions C90_tagged_partial.
Print Assumptions C90_plain_refuted.
Print Assumptions C90_layer_refuted.
Print Assumptions C91_found_partial.
Print Assumptions C91_last.
Print Assumptions C91_order.
Print Assumptions C91_first_refuted.
