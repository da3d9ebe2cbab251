(** Reading YAML, TOML and EDN: C98, C99, C100. *)
From Coq Require Import String List NArith Bool Ascii Lia.
From Verif Require Import Yaml.Model Yaml.Spec Yaml.Structure Yaml.Scalars Yaml.Inert.
Import ListNotations.
Open Scope string_scope.
Open Scope list_scope.

(** ** C98: a document is read as the data it holds *)

Section Documents.

Variable is_timestamp : string -> bool.
Variable normalize : string -> string.
Variable in_range : string -> bool.
Variable parse_eu parse_eu_fn : string -> option (list string).
Variable data_only : bool.
Notation convert := (convert_scalar is_timestamp normalize in_range parse_eu parse_eu_fn data_only).
Notation read := (read_yaml is_timestamp normalize in_range parse_eu parse_eu_fn data_only).

(** Reading the events of any document gives the value of the document, or an error where it has
    none, and never a panic. *)
Theorem C98_read n :
  read (events n) = match denote convert (fun _ => None) n with Some (e, _) => Read e | None => Refused end.
Proof. apply read_denotes. Qed.

(** Embedded code refers to the mappings around it, when nothing is merged. *)
Theorem C98_scope n e : no_merge n -> read (events n) = Read e -> resolved 0 e.
Proof.
  intros N. rewrite C98_read. destruct (denote convert _ n) as [[x m]|] eqn:D; [|discriminate]. intros [= <-].
  apply (denote_resolved _ _ _ _ _ _ n N) in D; [apply D|]. intros i y; discriminate.
Qed.

(** A quoted key << merges, so that a mapping with such a key for its data is an error. *)
Theorem C98_quoted_refuted s :
  read (events (NMap 0 [("<<", (false, 0, None), NScalar s false 0 None)])) = Refused.
Proof. rewrite C98_read. reflexivity. Qed.

(** The anchor of a key is not kept. *)
Theorem C98_key_anchor_refuted s :
  read (events (NMap 0 [("a", (true, 1, None), NScalar s false 0 None); ("b", (true, 0, None), NAlias 1)])) = Refused.
Proof. rewrite C98_read. reflexivity. Qed.

End Documents.

(** A mapping of data without code is the block of its entries. *)
Theorem C98_data es : (forall k e, In (k, e) es -> inert e) -> default_let es = EBlock es.
Proof. apply inert_let. Qed.

(** In a mapping, a name of embedded code is bound to the entry of that name; other names are left
    free. *)
Theorem C98_reference es k t refs j n :
  In (k, Code t refs) es -> nth_error refs j = Some (Free n) ->
  exists es' refs', default_let es = EBlock es' /\ map fst es' = map fst es /\ In (k, Code t refs') es' /\
    ((exists i, nth_error refs' j = Some (Bound 0 i) /\ nth_error (map fst es') i = Some n) \/
     (~ In n (map fst es) /\ nth_error refs' j = Some (Free n))).
Proof.
  intros I J. exists (map (fun '(k, x) => (k, close (map fst es) 0 x)) es), (map (close_ref (map fst es) 0) refs).
  split; [reflexivity|]. split; [apply default_let_keys|]. split.
  - apply in_map_iff. exists (k, Code t refs). split; [reflexivity|exact I].
  - rewrite default_let_keys. rewrite nth_error_map, J. cbn [option_map close_ref].
    destruct (in_dec string_dec n (map fst es)) as [Y|N].
    + left. destruct (position_some n _ Y) as [i E]. exists i. rewrite E. split; [reflexivity|now apply position_nth].
    + right. split; [exact N|]. now rewrite position_none.
Qed.

Lemma entry_app k a b : entry k (a ++ b) = match entry k a with Some v => Some v | None => entry k b end.
Proof. induction a as [|[k' v] a IH]; [reflexivity|]. cbn. destruct (String.eqb k k'); [reflexivity|exact IH]. Qed.

Lemma entry_filter k k' l : entry k (filter (fun e => negb (String.eqb k' (fst e))) l) =
  if String.eqb k k' then None else entry k l.
Proof.
  induction l as [|[x v] l IH]; [now destruct (String.eqb k k')|]. cbn [filter fst entry].
  destruct (String.eqb_spec k' x) as [->|N]; cbn [negb].
  - rewrite IH. destruct (String.eqb_spec k x) as [->|Nk]; reflexivity.
  - cbn [entry]. rewrite IH. destruct (String.eqb_spec k x) as [->|Nk]; [|reflexivity].
    destruct (String.eqb_spec x k') as [->|_]; [contradiction|reflexivity].
Qed.

Lemma entry_has k l : has_key k l = match entry k l with Some _ => true | None => false end.
Proof.
  induction l as [|[x v] l IH]; [reflexivity|]. cbn [has_key existsb fst entry]. destruct (String.eqb k x); [reflexivity|exact IH].
Qed.

Lemma entry_merge k new : forall es, entry k (merge_into es new) = match entry k es with Some v => Some v | None => entry k new end.
Proof.
  unfold merge_into. induction new as [|[x v] new IH]; intros es; cbn [fold_left fst].
  - destruct (entry k es); reflexivity.
  - rewrite IH. destruct (has_key x es) eqn:H; cbn [entry].
    + destruct (entry k es) eqn:E; [reflexivity|]. destruct (String.eqb_spec k x) as [->|_]; [|reflexivity].
      rewrite entry_has, E in H. discriminate.
    + rewrite entry_app. cbn [entry]. destruct (entry k es); [reflexivity|]. destruct (String.eqb k x); reflexivity.
Qed.

Lemma written_app k a b : written k (a ++ b) = match written k b with Some v => Some v | None => written k a end.
Proof.
  induction a as [|[k' v|es] a IH]; cbn; [now destruct (written k b)| |exact IH]. rewrite IH. now destruct (written k b).
Qed.
Lemma merged_find_app k a b : merged k (a ++ b) = match merged k a with Some v => Some v | None => merged k b end.
Proof.
  induction a as [|[k' v|es] a IH]; cbn; [reflexivity|exact IH|]. rewrite IH. now destruct (entry k es).
Qed.

(** A key has the value written last for it, wherever merges stand; if none is written, the one
    merged first. *)
Theorem C98_precedence k items : (forall es, In (Merge es) items -> NoDup (map fst es)) ->
  entry k (block_of items) = match written k items with Some v => Some v | None => merged k items end.
Proof.
  induction items as [|i items IH] using rev_ind; intros H; [reflexivity|].
  rewrite written_app, merged_find_app.
  assert (H' : forall es, In (Merge es) items -> NoDup (map fst es)) by (intros es I; apply H, in_or_app; now left).
  destruct i as [k' v|es]; cbn [written merged].
  - rewrite block_explicit. unfold replace. rewrite entry_app, entry_filter, (IH H'). cbn [fst entry].
    destruct (String.eqb k k'); [reflexivity|]. destruct (written k items); [reflexivity|]. destruct (merged k items); reflexivity.
  - rewrite block_merge by (apply H, in_or_app; right; now left). rewrite entry_merge, (IH H').
    destruct (written k items); [reflexivity|]. destruct (merged k items); [reflexivity|]. destruct (entry k es); reflexivity.
Qed.

(** A mapping with embedded code, merged into another: the reference leaves the document. *)
Definition base_and_derived : node :=
  NMap 0 [("base", (true, 0, None),
           NMap 1 [("x", (true, 0, None), NScalar "one" false 0 None);
                   ("y", (true, 0, None), NScalar "x" true 0 (Some ("!", "eu")))]);
          ("derived", (true, 0, None), NMap 0 [("<<", (true, 0, None), NAlias 1)])].

Theorem C98_merge_scope_refuted is_timestamp normalize in_range parse_eu parse_eu_fn :
  parse_eu "x" = Some ["x"] ->
  exists e, read_yaml is_timestamp normalize in_range parse_eu parse_eu_fn false (events base_and_derived) = Read e /\
    ~ resolved 0 e.
Proof.
  intros P. eexists. split.
  - unfold read_yaml, base_and_derived. cbn [events flat_map app fold_left on_event convert_scalar from_token_type].
    cbn. rewrite P. cbn. reflexivity.
  - intros R. inversion R as [| | | |? ? I|]; subst; [|contradiction].
    specialize (I "derived" _ (or_intror (or_introl eq_refl))). inversion I as [| | | |? ? I2|]; subst; [|contradiction].
    specialize (I2 "y" _ (or_intror (or_introl eq_refl))). inversion I2 as [? ? ? I3| | | | |]; subst; [|contradiction].
    specialize (I3 _ _ (or_introl eq_refl)). lia.
Qed.

(** ** C99: plain scalars have the types of the core schema *)

Section Plain.

Variable is_timestamp : string -> bool.
Variable normalize : string -> string.
Variable in_range : string -> bool.
Variable parse_eu parse_eu_fn : string -> option (list string).
Variable data_only : bool.
Notation convert := (convert_scalar is_timestamp normalize in_range parse_eu parse_eu_fn data_only).
Notation plain t := (convert t true None).

Theorem C99_words t :
  (In t ["null"; "Null"; "NULL"; "~"; ""] -> plain t = Some Null) /\
  (In t ["true"; "True"; "TRUE"] -> plain t = Some (Bool true)) /\
  (In t ["false"; "False"; "FALSE"] -> plain t = Some (Bool false)).
Proof.
  split; [|split]; cbn [In]; intros H; repeat (destruct H as [<-|H]; [reflexivity|]); destruct H.
Qed.

Theorem C99_numbers t : json_text t -> plain t = if in_range t then Some (Num t) else None.
Proof. apply json_plain. Qed.

(** A text that is no word or number and that has none of the odd beginnings and endings below is a
    time if it looks like one, read by ZDT.PARSE or left as it is in data-only reading, and otherwise
    a string. *)
Theorem C99_text_partial t :
  ~ In t ["null"; "Null"; "NULL"; "~"; ""] -> ~ In t ["true"; "True"; "false"; "False"] ->
  ~ schema_int t -> ~ schema_float t ->
  ~ starts "TRUE" t -> ~ finishes "FALSE" t -> ~ starts ".nan" t -> ~ within ".NaN" t -> ~ finishes ".NAN" t ->
  plain t = Some (if is_timestamp t then if data_only then Str t else Time (normalize t) else Str t).
Proof. apply other_plain. Qed.

Theorem C99_quoted t : convert t false None = Some (Str t).
Proof. reflexivity. Qed.

(** A tag decides the type whatever the text, quoted or not; tags of the document's own are kept as
    metadata. *)
Theorem C99_tags t quoted c :
  convert t quoted (Some ("!!", "str")) = Some (Str t) /\
  convert t quoted (Some ("!!", "null")) = Some Null /\
  (json_text t -> in_range t = true ->
   convert t quoted (Some ("!!", "int")) = Some (Num t) /\ convert t quoted (Some ("!!", "float")) = Some (Num t)) /\
  (In t ["true"; "True"; "TRUE"] -> convert t quoted (Some ("!!", "bool")) = Some (Bool true)) /\
  (In t ["false"; "False"; "FALSE"] -> convert t quoted (Some ("!!", "bool")) = Some (Bool false)) /\
  (~ In c ["eu"; "eu::fn"; "eu::suppress"] -> convert t quoted (Some ("!", c)) = Some (Tagged (Str t) ("!" ++ c))).
Proof.
  split; [reflexivity|]. split; [reflexivity|]. split; [|split; [|split]].
  - intros J R. destruct (json_facts t J) as (_ & _ & _ & U). cbn. unfold number. rewrite U, R. split; reflexivity.
  - cbn [In]; intros H; repeat (destruct H as [<-|H]; [reflexivity|]); destruct H.
  - cbn [In]; intros H; repeat (destruct H as [<-|H]; [reflexivity|]); destruct H.
  - intros N. unfold convert_scalar. cbn [from_token_type fst snd String.eqb Ascii.eqb Bool.eqb].
    assert (H : forall w, In w ["eu"; "eu::fn"; "eu::suppress"] -> String.eqb c w = false).
    { intros w W. apply String.eqb_neq. intros ->. contradiction. }
    rewrite !H by (cbn; tauto). reflexivity.
Qed.

(** Texts that begin with TRUE or end with FALSE are read as false. *)
Theorem C99_true_refuted r : r <> "" -> plain ("TRUE" ++ r)%string = Some (Bool false).
Proof. apply true_prefix. Qed.

Theorem C99_false_refuted r : plain (r ++ "FALSE")%string = Some (Bool false).
Proof. apply false_suffix. Qed.

(** Texts that begin with .nan, and .nan itself, are refused. *)
Theorem C99_nan_refuted r : ~ finishes "FALSE" r -> plain (".nan" ++ r)%string = None.
Proof. apply nan_prefix. Qed.

(** Numbers of the core schema that are not numbers of JSON are refused. *)
Theorem C99_numbers_refuted d :
  (number_of "01234567" d -> plain ("0o" ++ d)%string = None) /\
  (number_of "0123456789abcdefABCDEF" d -> plain ("0x" ++ d)%string = None) /\
  (number_of decimal d -> plain ("+" ++ d)%string = None) /\
  (number_of decimal d -> plain ("0" ++ d)%string = None) /\
  (number_of decimal d -> plain ("." ++ d)%string = None) /\
  (In d [".inf"; ".Inf"; ".INF"] -> plain d = None).
Proof.
  split; [apply octal_refused|]. split; [apply hex_refused|]. split; [apply plus_refused|]. split; [apply zero_refused|].
  split; [apply point_refused|]. intros [<-|[<-|[<-|[]]]]; reflexivity.
Qed.

End Plain.

(** ** C100: data-only reading yields data *)

Section DataOnly.

Variable is_timestamp : string -> bool.
Variable normalize : string -> string.
Variable in_range : string -> bool.
Variable parse_eu parse_eu_fn : string -> option (list string).
Variable scan : string -> option (list event).
Variable parse_toml : string -> option toml.
Variable parse_edn : string -> option edn.
Variable lines : string -> list string.

(** Whatever the events, and so whatever the text. *)
Theorem C100_yaml evs e :
  read_yaml is_timestamp normalize in_range parse_eu parse_eu_fn true evs = Read e -> inert e.
Proof. apply read_inert. Qed.

Notation read := (read_to_core is_timestamp normalize in_range parse_eu parse_eu_fn scan parse_toml parse_edn lines true).

Theorem C100_formats_partial format s e :
  In format ["yaml"; "json"; "toml"; "edn"] -> read format s = Read e -> inert e.
Proof.
  intros [<-|[<-|[<-|[<-|[]]]]]; unfold read_to_core; cbn [String.eqb Ascii.eqb Bool.eqb orb].
  - unfold yaml_text. destruct (scan s); [apply C100_yaml|discriminate].
  - unfold yaml_text. destruct (scan s); [apply C100_yaml|discriminate].
  - destruct (parse_toml s) as [v|]; [|discriminate]. destruct (toml_to_core true v) as [x|] eqn:T; [|discriminate].
    intros [= <-]. now apply (toml_inert v).
  - destruct (parse_edn s) as [v|]; [|discriminate]. destruct (edn_to_core true v) as [x|] eqn:T; [|discriminate].
    intros [= <-]. now apply (edn_inert v).
Qed.

(** Lines of JSON Lines are read as code where they say so. *)
Theorem C100_jsonl_refuted code names :
  code <> "" -> parse_eu code = Some names ->
  lines ("!eu " ++ code) = ["!eu " ++ code]%string ->
  scan ("!eu " ++ code) = Some [Scalar code true 0 (Some ("!", "eu"))] ->
  read "jsonl" ("!eu " ++ code) = Read (EList [Code code (map Free names)]) /\
  ~ inert (EList [Code code (map Free names)]).
Proof.
  intros N P L S. split.
  - unfold read_to_core. cbn [String.eqb Ascii.eqb Bool.eqb orb]. unfold read_jsonl. rewrite L. unfold yaml_text. rewrite S.
    cbn. unfold read_yaml. cbn. rewrite P. reflexivity.
  - intros H. inversion H as [| | | | | | |? I|]; subst. specialize (I _ (or_introl eq_refl)). inversion I.
Qed.

End DataOnly.

(** ** Examples *)

(** {a: &1 {x: "p"}, b: {x: "q", <<: *1, y: 2}, c: [*1, ~]} *)
Definition sample : node :=
  NMap 0 [("a", (true, 0, None), NMap 1 [("x", (true, 0, None), NScalar "p" false 0 None);
                                        ("z", (true, 0, None), NScalar "r" false 0 None)]);
          ("b", (true, 0, None), NMap 0 [("x", (true, 0, None), NScalar "q" false 0 None);
                                        ("<<", (true, 0, None), NAlias 1);
                                        ("y", (true, 0, None), NScalar "2" true 0 None)]);
          ("c", (true, 0, None), NSeq 0 [NAlias 1; NScalar "~" true 0 None])].

Definition no_time (_ : string) := false.
Definition same (s : string) := s.
Definition any (_ : string) := true.
Definition a_name (s : string) := Some [s].

Example C98_example :
  read_yaml no_time same any a_name a_name false (events sample) =
  Read (EBlock [("a", EBlock [("x", Str "p"); ("z", Str "r")]);
                ("b", EBlock [("x", Str "q"); ("z", Str "r"); ("y", Num "2")]);
                ("c", EList [EBlock [("x", Str "p"); ("z", Str "r")]; Null])]).
Proof. reflexivity. Qed.

Example C98_scope_example :
  no_merge (NMap 0 [("x", (true, 0, None), NScalar "one" false 0 None);
                    ("y", (true, 0, None), NScalar "x" true 0 (Some ("!", "eu")))]) /\
  read_yaml no_time same any a_name a_name false
    (events (NMap 0 [("x", (true, 0, None), NScalar "one" false 0 None);
                     ("y", (true, 0, None), NScalar "x" true 0 (Some ("!", "eu")))])) =
  Read (EBlock [("x", Str "one"); ("y", Code "x" [Bound 0 0])]).
Proof. split; [cbn; repeat split; discriminate|reflexivity]. Qed.

Example C98_precedence_example :
  block_of [Explicit "a" (Str "1"); Merge [("a", Str "2"); ("b", Str "3"); ("c", Str "4")]; Merge [("b", Str "5")];
            Explicit "c" (Str "6")] =
  [("a", Str "1"); ("b", Str "3"); ("c", Str "6")].
Proof. reflexivity. Qed.

Example C99_numbers_example : json_text "-12.50e+3".
Proof.
  change "-12.50e+3"%string with ("-" ++ "12" ++ "." ++ "50" ++ ("e" ++ "+" ++ "3"))%string. apply json_fraction.
  - now right.
  - constructor; [cbn; tauto|]. intros c [<-|[]]. cbn; tauto.
  - split; [discriminate|]. intros c [<-|[<-|[]]]; cbn; tauto.
  - apply power_some; [now left|right; now right|]. split; [discriminate|]. intros c [<-|[]]. cbn; tauto.
Qed.

Example C99_text_example :
  convert_scalar no_time same any a_name a_name false "Untrue" true None = Some (Str "Untrue").
Proof. reflexivity. Qed.

Example C99_odd_examples :
  convert_scalar no_time same any a_name a_name false "TRUETYPE" true None = Some (Bool false) /\
  convert_scalar no_time same any a_name a_name false ".nanorc" true None = None.
Proof. split; reflexivity. Qed.

Example C100_example :
  read_yaml no_time same any a_name a_name true
    (events (NMap 0 [("y", (true, 0, None), NScalar "x" true 0 (Some ("!", "eu")))])) =
  Read (EBlock [("y", Str "x")]).
Proof. reflexivity. Qed.

Example C100_toml_example :
  read_to_core no_time same any a_name a_name (fun _ => None) (fun _ => Some (TomlTable [("d", TomlDate "2020-01-01")]))
    (fun _ => None) (fun s => [s]) true "toml" "d = 2020-01-01" = Read (EBlock [("d", Str "2020-01-01")]).
Proof. reflexivity. Qed.

Print Assumptions C98_read.
Print Assumptions C98_scope.
Print Assumptions C98_data.
Print Assumptions C98_reference.
Print Assumptions C98_precedence.
Print Assumptions C98_quoted_refuted.
Print Assumptions C98_key_anchor_refuted.
Print Assumptions C98_merge_scope_refuted.
Print Assumptions C99_words.
Print Assumptions C99_numbers.
Print Assumptions C99_text_partial.
Print Assumptions C99_quoted.
Print Assumptions C99_tags.
Print Assumptions C99_true_refuted.
Print Assumptions C99_false_refuted.
Print Assumptions C99_nan_refuted.
Print Assumptions C99_numbers_refuted.
Print Assumptions C100_yaml.
Print Assumptions C100_formats_partial.
Print Assumptions C100_jsonl_refuted.
