(** Properties of imports: C84 (writing them), C85 (loading them) and C86 (using
    their names). *)
From Coq Require Import List NArith Bool Arith Lia Relations.
From Verif.Imports Require Import Model Spec Specifier Scoping Loading.
Import ListNotations.

(** * C84: import specifiers *)

Section Written.
Variable white : N -> bool.
Variable parse_url : text -> option locator.
Variable format_of_extension : text -> option text.
Variables json_format eu_format core_format dash resource_prefix pseudo_prefix : text.

Let parse := parse_input white parse_url format_of_extension json_format eu_format core_format
               dash resource_prefix pseudo_prefix.
Let plain := plain_path white parse_url dash resource_prefix pseudo_prefix.
(* The format a path has if none is written. *)
Let inferred (p : text) := match format_of_extension p with Some f => f | None => eu_format end.

Lemma plain_locator : forall p, plain p ->
  locator_from white parse_url dash resource_prefix pseudo_prefix p = Some (Fs p).
Proof.
  intros p (_ & B & D & R & P & U). unfold locator_from, chomp. destruct p as [|c p].
  - rewrite D, R, P, U. reflexivity.
  - destruct (c =? open_bracket)%N eqn:E.
    + apply N.eqb_eq in E. subst. exfalso. apply B. reflexivity.
    + rewrite D, R, P, U. reflexivity.
Qed.

(** Written in full, with white space anywhere around the parts, every part is
    read back, whatever characters the path has. *)
Theorem C84_full : forall n f p,
  ~ In equals_sign n -> ~ In at_sign f -> plain (trim white p) ->
  parse (n ++ equals_sign :: f ++ at_sign :: p) =
    Parsed (Input (Fs (trim white p)) (Some (trim white n)) (trim white f)).
Proof.
  intros n f p N F P. unfold parse, parse_input. rewrite split_here by exact N.
  rewrite split_here by exact F. rewrite plain_locator by exact P. reflexivity.
Qed.

(** The name, the format or both may be left out, if no later part then looks
    like one. *)
Theorem C84_short : forall n f p, plain (trim white p) ->
  (~ In equals_sign f -> ~ In equals_sign p -> ~ In at_sign f ->
   parse (f ++ at_sign :: p) = Parsed (Input (Fs (trim white p)) None (trim white f))) /\
  (~ In equals_sign n -> ~ In at_sign p ->
   parse (n ++ equals_sign :: p) =
     Parsed (Input (Fs (trim white p)) (Some (trim white n)) (inferred (trim white p)))) /\
  (~ In equals_sign p -> ~ In at_sign p ->
   parse p = Parsed (Input (Fs (trim white p)) None (inferred (trim white p)))).
Proof.
  intros n f p P. split; [|split].
  - intros F1 P1 F2. unfold parse, parse_input.
    assert (NE : ~ In equals_sign (f ++ at_sign :: p)).
    { intros H. apply in_app_or in H. destruct H as [H | [H | H]]; [auto | discriminate | auto]. }
    rewrite (split_none equals_sign _ NE). rewrite split_here by exact F2.
    rewrite plain_locator by exact P. reflexivity.
  - intros N P1. unfold parse, parse_input. rewrite split_here by exact N.
    rewrite (split_none at_sign _ P1). rewrite plain_locator by exact P. reflexivity.
  - intros P1 P2. unfold parse, parse_input. rewrite (split_none _ _ P1), (split_none _ _ P2).
    rewrite plain_locator by exact P. reflexivity.
Qed.

(** An input shown in a message can be written again, if it has a name; without
    one, if no equals sign is in its path or format. *)
Theorem C84_shown : forall name f p,
  plain p -> trim white f = f -> ~ In at_sign f ->
  match name with
  | Some n => trim white n = n /\ ~ In equals_sign n
  | None => ~ In equals_sign f /\ ~ In equals_sign p
  end ->
  parse (show_file_input name f p) = Parsed (Input (Fs p) name f).
Proof.
  intros name f p P F A N. pose proof (proj1 P) as T. destruct name as [n|]; simpl.
  - destruct N as [N1 N2]. rewrite C84_full by (rewrite ?T; assumption). rewrite T, N1, F. reflexivity.
  - destruct N as [N1 N2].
    destruct (C84_short [] f p) as (H & _); [rewrite T; exact P|].
    rewrite H by assumption. rewrite T, F. reflexivity.
Qed.
End Written.
Print Assumptions C84_full.
Print Assumptions C84_short.
Print Assumptions C84_shown.

(** Instances: only a space is white, nothing is a URL, no extension is known. *)
Definition space (c : N) : bool := (c =? 32)%N.
Definition parse_ascii : text -> parsed :=
  parse_input space (fun _ => None) (fun _ => None) [106%N] [101%N; 117%N] [99%N] [45%N] [114%N; 58%N] [112%N; 58%N].
Definition plain_ascii : text -> Prop := plain_path space (fun _ => None) [45%N] [114%N; 58%N] [112%N; 58%N].

(* The path a@b=c, with the name n and the format f. *)
Example C84_full_example :
  plain_ascii [97; 64; 98; 61; 99]%N /\
  parse_ascii [110; 32; 61; 102; 64; 32; 97; 64; 98; 61; 99]%N =
    Parsed (Input (Fs [97; 64; 98; 61; 99]%N) (Some [110%N]) [102%N]).
Proof. split; [repeat split; discriminate | reflexivity]. Qed.

Example C84_short_example :
  plain_ascii [97; 46; 98]%N /\
  parse_ascii [97; 46; 98]%N = Parsed (Input (Fs [97; 46; 98]%N) None [101; 117]%N) /\
  parse_ascii [110; 61; 97; 46; 98]%N = Parsed (Input (Fs [97; 46; 98]%N) (Some [110%N]) [101; 117]%N) /\
  parse_ascii [102; 64; 97; 46; 98]%N = Parsed (Input (Fs [97; 46; 98]%N) None [102%N]).
Proof. split; [repeat split; discriminate | repeat split]. Qed.

Example C84_shown_example :
  parse_ascii (show_file_input (Some [110%N]) [102%N] [97; 64; 98]%N) =
    Parsed (Input (Fs [97; 64; 98]%N) (Some [110%N]) [102%N]).
Proof. reflexivity. Qed.

(** A path that is written by itself is not always the path that is read: the
    directory a@b loses what is before the sign, and a path with an equals sign
    is given a name. *)
Theorem C84_path_refuted :
  (exists p q n f, plain_ascii p /\ In at_sign p /\ parse_ascii p = Parsed (Input (Fs q) n f) /\ q <> p) /\
  (exists p q n f, plain_ascii p /\ In equals_sign p /\ parse_ascii p = Parsed (Input (Fs q) n f) /\ q <> p).
Proof.
  split.
  - exists [97; 64; 98]%N, [98]%N, None, [97%N].
    split; [repeat split; discriminate | split; [right; left; reflexivity | split; [reflexivity | discriminate]]].
  - exists [97; 61; 98]%N, [98]%N, (Some [97%N]), [101; 117]%N.
    split; [repeat split; discriminate | split; [right; left; reflexivity | split; [reflexivity | discriminate]]].
Qed.
Print Assumptions C84_path_refuted.

(** A lone opening bracket, and one before a text that ends in a character of
    several bytes, end the process. *)
Theorem C84_total_refuted :
  parse_ascii [91%N] = Panics /\ parse_ascii [91; 97; 233]%N = Panics.
Proof. split; reflexivity. Qed.
Print Assumptions C84_total_refuted.

(** A path with an opening bracket and no closing one loses its last character. *)
Theorem C84_bracket_refuted :
  exists p q, hd_error p = Some open_bracket /\ last p 0%N <> 93%N /\
    parse_ascii p = Parsed (Input (Fs q) None [101; 117]%N) /\ length q + 2 = length p.
Proof.
  exists [91; 97; 98; 99]%N, [97; 98]%N. split; [reflexivity|]. split; [discriminate|]. split; reflexivity.
Qed.
Print Assumptions C84_bracket_refuted.

(** Texts without an opening bracket never end the process. *)
Theorem C84_total_partial : forall white parse_url ext j e c d r p s,
  ~ In open_bracket s -> exists i, parse_input white parse_url ext j e c d r p s = Parsed i.
Proof.
  intros white parse_url ext j e c d r p s N. unfold parse_input.
  assert (A : forall o s', (forall x, In x s' -> In x s) ->
     exists i, match locator_from white parse_url d r p (trim white s') with
       | Some l => Parsed (Input l o match (@None text) with Some f => f | None =>
           match infer_format ext j e c l with Some f => f | None => e end end)
       | None => Panics end = Parsed i).
  { intros o s' M. destruct (locator_from _ _ _ _ _ _) eqn:L; [eauto|].
    exfalso. eapply locator_total; [|exact L]. intros H. apply N, M. eapply trim_in, H. }
  assert (B : forall o f s', (forall x, In x s' -> In x s) ->
     exists i, match locator_from white parse_url d r p (trim white s') with
       | Some l => Parsed (Input l o f)
       | None => Panics end = Parsed i).
  { intros o f s' M. destruct (locator_from _ _ _ _ _ _) eqn:L; [eauto|].
    exfalso. eapply locator_total; [|exact L]. intros H. apply N, M. eapply trim_in, H. }
  destruct (split_first equals_sign s) as [[n s1]|] eqn:E1.
  - assert (M1 : forall x, In x s1 -> In x s) by (intros x; eapply split_rest; eauto).
    destruct (split_first at_sign s1) as [[f s2]|] eqn:E2.
    + apply B. intros x X. apply M1. eapply split_rest; eauto.
    + apply A, M1.
  - destruct (split_first at_sign s) as [[f s2]|] eqn:E2.
    + apply B. intros x X. eapply split_rest; eauto.
    + apply A. auto.
Qed.
Print Assumptions C84_total_partial.

Example C84_total_example : ~ In open_bracket [110; 61; 64; 64]%N /\
  parse_ascii [110; 61; 64; 64]%N = Parsed (Input (Fs [64%N]) (Some [110%N]) []).
Proof. split; [|reflexivity]. intros [H | [H | [H | [H | []]]]]; discriminate. Qed.

(** * C85: loading *)

(** Loading ends, whatever the imports, if only finitely many paths can come
    up. *)
Theorem C85_ends : forall fs baked universe main lib,
  (forall p q, In p universe -> may_ask fs baked p q -> In q universe) -> In main universe ->
  forall fuel, length universe <= fuel -> load fs baked fuel lib nothing main <> Starved.
Proof.
  intros fs baked universe main lib C M fuel L.
  apply (load_ends fs baked universe C fuel lib nothing main []); auto.
  - apply nothing_sane.
  - intros a [].
  - simpl. auto.
  - simpl. lia.
Qed.
Print Assumptions C85_ends.

(** When it succeeds, the main file and every file that a loaded file imports are
    loaded, each as a file of that path that is there; and no file imports
    itself, even through others. *)
Theorem C85_loaded : forall fs baked fuel lib main s,
  load fs baked fuel lib nothing main = Loaded s ->
  (exists at_ f, known s main at_ f) /\
  (forall p q, asks s p q -> exists at_ f, known s q at_ f) /\
  (forall p at_ f, known s p at_ f -> found_at fs baked p at_ f) /\
  (forall p, ~ clos_trans path (asks s) p p).
Proof.
  intros fs baked fuel lib main s H.
  destruct (load_achieves _ _ _ _ _ _ _ (nothing_sane fs baked) H) as (S & X & K & D).
  assert (KN : forall p, lookup_path p (found s) <> None -> exists at_ f, known s p at_ f).
  { intros p N. unfold known. destruct (lookup_path p (found s)) as [[a f]|]; [eauto | congruence]. }
  split; [apply KN, K|]. split; [|split].
  - intros p q A. apply KN. apply (D p); [left; reflexivity | exact A].
  - intros p at_ f A. eapply truthful; eauto.
  - intros p C. eapply (no_cycle _ _ _ S). eapply t_mono; [|exact C].
    intros x y A. apply (D x); [left; reflexivity | exact A].
Qed.
Print Assumptions C85_loaded.

(** When a cycle is reported, there are files of those paths that import each
    other in a circle. *)
Theorem C85_cycle : forall fs baked fuel lib main c,
  load fs baked fuel lib nothing main = Cyclic c -> clos_trans path (may_ask fs baked) c c.
Proof.
  intros fs baked fuel lib main c H. eapply load_cyclic; [apply nothing_sane | exact H].
Qed.
Print Assumptions C85_cycle.

(** A file that is said to be unreadable is in none of the places where imports
    are looked for. *)
Theorem C85_unreadable : forall fs baked fuel lib main q,
  load fs baked fuel lib nothing main = Unreadable q ->
  fs q = None /\ baked q = None /\ forall d, In d lib -> fs (d ++ q) = None.
Proof. intros fs baked fuel lib main q H. eapply load_unreadable, H. Qed.
Print Assumptions C85_unreadable.

(** Where each path finds only one file, every import is the file that the
    documented order of search gives. *)
Theorem C85_documented_partial : forall fs baked fuel lib main s,
  unambiguous fs baked ->
  load fs baked fuel lib nothing main = Loaded s ->
  forall p at_p wanted q at_q f x,
    q <> [] -> known s p at_p (Source wanted) -> In q wanted -> known s q at_q f ->
    documented fs baked lib (removelast at_p) q = Some x -> at_q = x.
Proof.
  intros fs baked fuel lib main s [U1 U2] H p at_p wanted q at_q f x NQ _ _ K D.
  destruct (C85_loaded _ _ _ _ _ _ H) as (_ & _ & T & _). apply T in K.
  unfold documented in D.
  destruct (find _ _) as [y|] eqn:F.
  - injection D as <-. apply find_some in F. destruct F as [F1 F2].
    assert (FY : fs y <> None) by (destruct (fs y); [discriminate | discriminate F2]).
    assert (exists d, y = d ++ q) as (d & E).
    { apply in_app_or in F1. destruct F1 as [F1 | [F1 | []]].
      - apply in_map_iff in F1. destruct F1 as (d & E & _). exists d. symmetry. exact E.
      - exists []. symmetry. exact F1. }
    destruct K as [((e & K1) & K2) | (K1 & K2 & K3)].
    + subst. apply U1; [exact NQ | congruence | congruence].
    + exfalso. subst y. apply FY. apply U2; congruence.
  - destruct (baked q) eqn:B; [|discriminate]. injection D as <-.
    destruct K as [((e & K1) & K2) | (K1 & _)]; [|exact K1].
    exfalso. subst. rewrite U2 in K2; [discriminate | exact NQ | congruence].
Qed.
Print Assumptions C85_documented_partial.

(** A project: main imports lib/a, which imports b; b is beside lib/a. *)
Definition small_project (p : path) : option file :=
  if path_eqb p [0] then Some (Source [[1; 2]])
  else if path_eqb p [1; 2] then Some (Source [[3]])
  else if path_eqb p [1; 3] then Some Data
  else None.

Example C85_example :
  exists s, load small_project (fun _ => None) 4 [] nothing [0] = Loaded s /\
    known s [0] [0] (Source [[1; 2]]) /\ known s [1; 2] [1; 2] (Source [[3]]) /\ known s [3] [1; 3] Data /\
    documented small_project (fun _ => None) [] (removelast [1; 2]) [3] = Some [1; 3].
Proof. eexists. split; [reflexivity|]. repeat split. Qed.

Example C85_ends_example :
  (forall p q, In p [[0]; [1; 2]; [3]] -> may_ask small_project (fun _ => None) p q ->
     In q [[0]; [1; 2]; [3]]) /\
  load small_project (fun _ => None) 3 [] nothing [0] <> Starved.
Proof.
  split; [|discriminate].
  intros p q _ (at_ & w & [[_ F] | (_ & _ & F)] & W); [|discriminate]. unfold small_project in F.
  destruct (path_eqb at_ [0]); [injection F as <-; destruct W as [<- | []]; simpl; auto|].
  destruct (path_eqb at_ [1; 2]); [injection F as <-; destruct W as [<- | []]; simpl; auto|].
  destruct (path_eqb at_ [1; 3]); discriminate.
Qed.

Lemma last_app : forall (p a : path) d, p <> [] -> last (a ++ p) d = last p d.
Proof.
  intros p a d N. induction a as [|x a IH]; [reflexivity|]. simpl.
  destruct (a ++ p) eqn:E; [|exact IH]. apply app_eq_nil in E. destruct E. contradiction.
Qed.

Example C85_unambiguous_example : unambiguous small_project (fun _ => None).
Proof.
  split; [|intros p a N B; congruence]. intros p a b N A B.
  assert (S3 : forall x, small_project x <> None -> x = [0] \/ x = [1; 2] \/ x = [1; 3]).
  { intros x X. unfold small_project in X. destruct (path_eqb x [0]) eqn:E; [left; apply path_eqb_eq, E|].
    destruct (path_eqb x [1; 2]) eqn:E1; [right; left; apply path_eqb_eq, E1|].
    destruct (path_eqb x [1; 3]) eqn:E2; [right; right; apply path_eqb_eq, E2 | congruence]. }
  pose proof (last_app p a 9 N) as LA. pose proof (last_app p b 9 N) as LB.
  destruct (S3 _ A) as [EA | [EA | EA]], (S3 _ B) as [EB | [EB | EB]];
    rewrite EA in *; rewrite EB in *; simpl in LA, LB; congruence.
Qed.

(** The documented order is not the order of the code.  Here lib/a imports b, and
    there are files b both beside it and beside main: the one beside main is
    taken. *)
Theorem C85_nearest_refuted :
  exists fs main s p at_p wanted q at_q f x,
    load fs (fun _ => None) 4 [] nothing main = Loaded s /\
    known s p at_p (Source wanted) /\ In q wanted /\ known s q at_q f /\
    documented fs (fun _ => None) [] (removelast at_p) q = Some x /\ at_q <> x.
Proof.
  exists (fun p => if path_eqb p [0] then Some (Source [[1; 2]])
                   else if path_eqb p [1; 2] then Some (Source [[3]])
                   else if path_eqb p [1; 3] then Some Data
                   else if path_eqb p [3] then Some Data else None),
    [0]. eexists. exists [1; 2], [1; 2], [[3]], [3], [3], Data, [1; 3].
  split; [reflexivity|]. repeat split; [left; reflexivity | discriminate].
Qed.
Print Assumptions C85_nearest_refuted.

(** Nor is the order all: two files in different directories that import files
    of the same name, each beside it, both get the first. *)
Theorem C85_own_refuted :
  exists fs main s, load fs (fun _ => None) 4 [] nothing main = Loaded s /\
    exists p at_p wanted q at_q f x,
      known s p at_p (Source wanted) /\ In q wanted /\ known s q at_q f /\
      fs q = None /\
      documented fs (fun _ => None) [] (removelast at_p) q = Some x /\ at_q <> x.
Proof.
  exists (fun p => if path_eqb p [0] then Some (Source [[1; 5]; [2; 6]])
                   else if path_eqb p [1; 5] then Some (Source [[3]])
                   else if path_eqb p [2; 6] then Some (Source [[3]])
                   else if path_eqb p [1; 3] then Some Data
                   else if path_eqb p [2; 3] then Some (Source []) else None),
    [0]. eexists. split; [reflexivity|].
  exists [2; 6], [2; 6], [[3]], [3], [1; 3], Data, [2; 3].
  repeat split; [left; reflexivity | discriminate].
Qed.
Print Assumptions C85_own_refuted.

(** And a cycle is reported where no file imports itself: main imports lib/a,
    which imports another file called main, beside it, which imports nothing. *)
Theorem C85_false_cycle_refuted :
  exists fs main c, load fs (fun _ => None) 4 [] nothing main = Cyclic c /\
    (forall p wanted q, fs p = Some (Source wanted) -> In q wanted ->
       exists x, documented fs (fun _ => None) [] (removelast p) q = Some x /\
         (fs x = Some (Source []) \/ exists y, fs x = Some (Source [y]) /\
            documented fs (fun _ => None) [] (removelast x) y = Some [1; 0])) /\
    fs [1; 0] = Some (Source []).
Proof.
  set (fs := fun p => if path_eqb p [0] then Some (Source [[1; 2]])
                   else if path_eqb p [1; 2] then Some (Source [[0]])
                   else if path_eqb p [1; 0] then Some (Source []) else None).
  exists fs, [0]. eexists. split; [reflexivity|]. split; [|reflexivity].
  intros p wanted q F W. unfold fs in F.
  destruct (path_eqb p [0]) eqn:E0.
  { apply path_eqb_eq in E0. subst p. injection F as <-. destruct W as [<- | []].
    exists [1; 2]. split; [reflexivity|]. right. exists [0]. split; reflexivity. }
  destruct (path_eqb p [1; 2]) eqn:E1.
  { apply path_eqb_eq in E1. subst p. injection F as <-. destruct W as [<- | []].
    exists [1; 0]. split; [reflexivity|]. left. reflexivity. }
  destruct (path_eqb p [1; 0]); [injection F as <-; destruct W | discriminate].
Qed.
Print Assumptions C85_false_cycle_refuted.

(** * C86: the names of imported files *)

(** Without imports in declarations and without names that mean different things
    in different files, every name that a file may refer to is bound where the
    file uses it, to the one thing it stands for. *)
Theorem C86_names_partial : forall files main,
  acyclic files -> only_unit_imports files -> no_clash files ->
  (exists fuel c, translate_unit files fuel main = Some c) /\
  (forall fuel c, translate_unit files fuel main = Some c ->
     (forall d, In d (udecls (files main)) -> exists s, In (s, main, drefs d) (places [] c)) /\
     (forall s f refs r, In (s, f, refs) (places [] c) -> In r refs -> offers files f r ->
        exists w, stands_for files r w /\ resolve s r = Some w)).
Proof.
  intros files main (rank & R) U N. split.
  - exists (S (rank main)). unfold translate_unit.
    destruct (unit_core files (S (rank main)) 1 0 no_imports_seen main) as [[c g]|] eqn:E; [eauto|].
    exfalso. eapply unit_ends with (rank := rank); [exact R | | exact E]. lia.
  - intros fuel c H. split.
    + intros d D. eapply all_there; eauto.
    + intros s f refs r P Rr O.
      destruct (translated files rank R (S (rank main)) (fun f d _ => U f d) N fuel main c (Nat.lt_succ_diag_r _) H s f refs P r Rr O) as (w & A & B).
      exists w. split; assumption.
Qed.
Print Assumptions C86_names_partial.

(** A project: main (0) imports a (1) and b (2) and c (3) as 30; a and b both
    import c; b uses a name of c. *)
Definition diamond (f : nat) : source :=
  match f with
  | 0 => SourceUnit [Import None 1; Import None 2; Import (Some 30) 3; Import (Some 31) 3]
           [Decl 10 [] [11; 12; 13; 30; 31]]
  | 1 => SourceUnit [Import None 3] [Decl 11 [] [13]]
  | 2 => SourceUnit [Import None 3] [Decl 12 [] [13]]
  | 3 => SourceUnit [] [Decl 13 [] []]
  | _ => SourceUnit [] []
  end.

Example C86_example :
  acyclic diamond /\ only_unit_imports diamond /\ no_clash diamond /\
  exists c s, translate_unit diamond 4 0 = Some c /\ In (s, 2, [13]) (places [] c) /\
    offers diamond 2 13 /\ resolve s 13 = Some (Declared 3).
Proof.
  assert (DI : forall f d i, In d (udecls (diamond f)) -> In i (dimports d) -> False).
  { intros f d i D I_. destruct f as [|[|[|[|f]]]]; simpl in D; try (destruct D as [<- | []]); try destruct D; destruct I_. }
  split; [|split; [|split]].
  - exists (fun f => 4 - f). intros f g (n & [I_ | (d & D & I_)]); [|exfalso; eauto].
    destruct f as [|[|[|[|f]]]]; simpl in I_;
      repeat match goal with H : _ \/ _ |- _ => destruct H | H : False |- _ => destruct H
             | H : Import _ _ = Import _ _ |- _ => injection H as <- <- end; lia.
  - intros f d D. destruct (dimports d) as [|i l] eqn:E; [reflexivity|].
    exfalso. eapply (DI f d i D). rewrite E. left. reflexivity.
  - assert (SF : forall n w, stands_for diamond n w ->
       w = match n with 10 => Declared 0 | 11 => Declared 1 | 12 => Declared 2 | 13 => Declared 3
           | _ => Namespace 3 end).
    { intros n w [(f & -> & d & D & <-) | (f & g & -> & [I_ | (d & D & I_)])]; [| |exfalso; eauto].
      - destruct f as [|[|[|[|f]]]]; simpl in D; try (destruct D as [<- | []]); try destruct D; reflexivity.
      - destruct f as [|[|[|[|f]]]]; simpl in I_;
          repeat match goal with H : _ \/ _ |- _ => destruct H | H : False |- _ => destruct H end;
          try discriminate;
          match goal with H : Import _ _ = Import _ _ |- _ => injection H as <- <- end; reflexivity. }
    intros n w w' A B. rewrite (SF _ _ A), (SF _ _ B). reflexivity.
  - eexists. eexists. split; [reflexivity|]. split; [simpl; repeat (first [left; reflexivity | right])|].
    split; [|reflexivity]. apply offers_imported with 3; [left; reflexivity|].
    apply offers_own. eexists. split; [left; reflexivity | reflexivity].
Qed.

(** Declarations of the main file may have imports of their own, if the files
    imported there import nothing and no file is imported under two names: then
    the names of the main file and those the declaration imports are bound in
    its value. *)
Theorem C86_scoped_partial : forall files main,
  acyclic files -> no_clash files -> one_name_each files ->
  (forall f d, f <> main -> In d (udecls (files f)) -> dimports d = []) ->
  (forall d i, In d (udecls (files main)) -> In i (dimports d) -> forall g, ~ imports files (what i) g) ->
  forall fuel c d, translate_unit files fuel main = Some c -> In d (udecls (files main)) ->
  exists s, In (s, main, drefs d) (places [] c) /\
    forall r, offers files main r \/ (exists i, In i (dimports d) /\ import_offers files i r) ->
      exists w, stands_for files r w /\ resolve s r = Some w.
Proof.
  intros files main (rank & R) N ON U LF fuel c d H D.
  destruct (scoped files rank R (rank main)) with (fuel := fuel) (main := main) (c := c) (d := d)
    as (s & P & Q); auto.
  - intros f e L E. apply (U f); [|exact E]. intros ->. lia.
  - intros e i De I_. split.
    + destruct (uimports (files (what i))) as [|j l] eqn:E; [reflexivity|]. exfalso.
      apply (LF e i De I_ (what j)). exists (as_name j). left. rewrite E. left. destruct j. reflexivity.
    + intros e' De'. destruct (dimports e') as [|j l] eqn:E; [reflexivity|]. exfalso.
      apply (LF e i De I_ (what j)). exists (as_name j). right. exists e'. rewrite E. split; [exact De'|].
      left. destruct j. reflexivity.
  - exists s. split; [exact P|]. intros r O. destruct (Q r O) as (w & A & B). exists w. split; assumption.
Qed.
Print Assumptions C86_scoped_partial.

(** A project: main (0) imports a (1), which imports c (2); one declaration of
    main imports c as well, the other imports e (3) under the name 30. *)
Definition scoped_project (f : nat) : source :=
  match f with
  | 0 => SourceUnit [Import None 1] [Decl 10 [Import None 2] [12; 11]; Decl 20 [Import (Some 30) 3] [30; 10]]
  | 1 => SourceUnit [Import None 2] [Decl 11 [] [12]]
  | 2 => SourceUnit [] [Decl 12 [] []]
  | 3 => SourceUnit [] [Decl 13 [] []]
  | _ => SourceUnit [] []
  end.

Example C86_scoped_example :
  acyclic scoped_project /\ no_clash scoped_project /\ one_name_each scoped_project /\
  (forall f d, f <> 0 -> In d (udecls (scoped_project f)) -> dimports d = []) /\
  (forall d i, In d (udecls (scoped_project 0)) -> In i (dimports d) ->
     forall g, ~ imports scoped_project (what i) g) /\
  exists c, translate_unit scoped_project 4 0 = Some c.
Proof.
  assert (IM : forall f g, imports scoped_project f g -> (f = 0 \/ f = 1) /\ f < g /\ g < 4).
  { intros f g (n & [I_ | (d & D & I_)]).
    - destruct f as [|[|[|[|f]]]]; simpl in I_;
        repeat match goal with H : _ \/ _ |- _ => destruct H | H : False |- _ => destruct H
               | H : Import _ _ = Import _ _ |- _ => injection H as <- <- end; lia.
    - destruct f as [|[|[|[|f]]]]; simpl in D;
        repeat match goal with H : _ \/ _ |- _ => destruct H | H : False |- _ => destruct H
               | H : Decl _ _ _ = _ |- _ => subst d; simpl in I_
               | H : Import _ _ = Import _ _ |- _ => injection H as <- <- end; lia. }
  assert (SF : forall n w, stands_for scoped_project n w ->
     w = match n with 10 => Declared 0 | 20 => Declared 0 | 11 => Declared 1 | 12 => Declared 2
         | 13 => Declared 3 | _ => Namespace 3 end /\ (forall g, w = Namespace g -> n = 30)).
  { intros n w [(f & -> & d & D & <-) | (f & g & -> & [I_ | (d & D & I_)])].
    - destruct f as [|[|[|[|f]]]]; simpl in D;
        repeat match goal with H : _ \/ _ |- _ => destruct H | H : False |- _ => destruct H
               | H : Decl _ _ _ = _ |- _ => subst d end; split; try reflexivity; discriminate.
    - exfalso. destruct f as [|[|[|[|f]]]]; simpl in I_;
        repeat match goal with H : _ \/ _ |- _ => destruct H | H : False |- _ => destruct H end; discriminate.
    - destruct f as [|[|[|[|f]]]]; simpl in D;
        repeat match goal with H : _ \/ _ |- _ => destruct H | H : False |- _ => destruct H
               | H : Decl _ _ _ = _ |- _ => subst d; simpl in I_
               | H : Import _ _ = Import _ _ |- _ => first [discriminate H | injection H as <- <-] end;
        split; reflexivity. }
  split; [exists (fun f => 4 - f); intros f g H; apply IM in H; lia|].
  split; [intros n w w' A B; rewrite (proj1 (SF _ _ A)), (proj1 (SF _ _ B)); reflexivity|].
  split; [intros n m f A B; rewrite (proj2 (SF _ _ A) f eq_refl), (proj2 (SF _ _ B) f eq_refl); reflexivity|].
  split; [|split; [|eexists; reflexivity]].
  - intros f d N D. destruct f as [|[|[|[|f]]]]; simpl in D; [lia | | | |];
      try (destruct D as [<- | []]); try destruct D; reflexivity.
  - intros d i D I_ g H. apply IM in H.
    simpl in D. destruct D as [<- | [<- | []]]; simpl in I_; destruct I_ as [<- | []]; simpl in H; lia.
Qed.

(** With a name in two files, a file can be given the name of a file that it does
    not import: here b imports c and uses its name, but gets that of a, which
    the main file imports before b. *)
Theorem C86_clash_refuted :
  exists files c s f refs r w g,
    acyclic files /\ only_unit_imports files /\ translate_unit files 4 0 = Some c /\
    In (s, f, refs) (places [] c) /\ In r refs /\
    In (Import None g) (uimports (files f)) /\ declares files g r /\
    resolve s r = Some (Declared w) /\ ~ clos_refl_trans nat (imports files) f w.
Proof.
  set (files := fun f => match f with
    | 0 => SourceUnit [Import None 1; Import None 2] [Decl 10 [] [12]]
    | 1 => SourceUnit [Import None 3] [Decl 13 [] []]
    | 2 => SourceUnit [Import None 3] [Decl 12 [] [13]]
    | 3 => SourceUnit [] [Decl 13 [] []]
    | _ => SourceUnit [] [] end).
  assert (IM : forall f g, imports files f g -> (f = 0 /\ (g = 1 \/ g = 2)) \/ ((f = 1 \/ f = 2) /\ g = 3)).
  { intros f g (n & [I_ | (d & D & I_)]).
    - destruct f as [|[|[|[|f]]]]; simpl in I_;
        repeat match goal with H : _ \/ _ |- _ => destruct H | H : False |- _ => destruct H
               | H : Import _ _ = Import _ _ |- _ => injection H as <- <- end; auto.
    - exfalso. destruct f as [|[|[|[|f]]]]; simpl in D; try (destruct D as [<- | []]); try destruct D; destruct I_. }
  exists files. eexists. eexists. exists 2, [13], 13, 1, 3.
  split; [|split; [|split; [reflexivity | split; [simpl; repeat (first [left; reflexivity | right])|]]]].
  - exists (fun f => 4 - f). intros f g H. apply IM in H. lia.
  - intros f d D. destruct f as [|[|[|[|f]]]]; simpl in D; try (destruct D as [<- | []]); try destruct D; reflexivity.
  - split; [left; reflexivity | split; [left; reflexivity | split; [|split; [reflexivity|]]]].
    + eexists. split; [left; reflexivity | reflexivity].
    + assert (NO : forall a b, clos_refl_trans_1n nat (imports files) a b -> b = 1 -> a <> 2 /\ a <> 3).
      { intros a b H. induction H as [x | x y z H1 H2 IH]; intros E; [lia|].
        specialize (IH E). apply IM in H1. lia. }
      intros H. apply clos_rt_rt1n in H. apply NO in H; lia.
Qed.
Print Assumptions C86_clash_refuted.

(** An import in the metadata of one declaration can be dropped because of an
    import in that of another: here x imports a, which imports c, and y imports
    c and uses its name, which is then not bound. *)
Theorem C86_scoped_refuted :
  exists files c d i s r,
    acyclic files /\ no_clash files /\ translate_unit files 3 0 = Some c /\
    In d (udecls (files 0)) /\ In i (dimports d) /\ import_offers files i r /\ In r (drefs d) /\
    In (s, 0, drefs d) (places [] c) /\ resolve s r = None.
Proof.
  set (files := fun f => match f with
    | 0 => SourceUnit [] [Decl 10 [Import None 1] [11]; Decl 20 [Import None 2] [12; 12]]
    | 1 => SourceUnit [Import None 2] [Decl 11 [] [12]]
    | 2 => SourceUnit [] [Decl 12 [] []]
    | _ => SourceUnit [] [] end).
  exists files. eexists. exists (Decl 20 [Import None 2] [12; 12]), (Import None 2). eexists. exists 12.
  split; [|split; [|split; [reflexivity|]]].
  - exists (fun f => 3 - f). intros f g (n & [I_ | (d & D & I_)]).
    + destruct f as [|[|[|f]]]; simpl in I_;
        repeat match goal with H : _ \/ _ |- _ => destruct H | H : False |- _ => destruct H
               | H : Import _ _ = Import _ _ |- _ => injection H as <- <- end; lia.
    + destruct f as [|[|[|f]]]; simpl in D;
        repeat match goal with H : _ \/ _ |- _ => destruct H | H : False |- _ => destruct H
               | H : Decl _ _ _ = _ |- _ => subst d; simpl in I_
               | H : Import _ _ = Import _ _ |- _ => injection H as <- <- end; lia.
  - assert (SF : forall n w, stands_for files n w ->
       w = match n with 10 => Declared 0 | 20 => Declared 0 | 11 => Declared 1 | _ => Declared 2 end).
    { intros n w [(f & -> & d & D & <-) | (f & g & -> & [I_ | (d & D & I_)])].
      - destruct f as [|[|[|f]]]; simpl in D;
          repeat match goal with H : _ \/ _ |- _ => destruct H | H : False |- _ => destruct H
                 | H : Decl _ _ _ = _ |- _ => subst d end; reflexivity.
      - exfalso. destruct f as [|[|[|f]]]; simpl in I_;
          repeat match goal with H : _ \/ _ |- _ => destruct H | H : False |- _ => destruct H end; discriminate.
      - exfalso. destruct f as [|[|[|f]]]; simpl in D;
          repeat match goal with H : _ \/ _ |- _ => destruct H | H : False |- _ => destruct H
                 | H : Decl _ _ _ = _ |- _ => subst d; simpl in I_ end; discriminate. }
    intros n w w' A B. rewrite (SF _ _ A), (SF _ _ B). reflexivity.
  - split; [right; left; reflexivity|]. split; [left; reflexivity|].
    split; [apply offers_own; eexists; split; [left; reflexivity | reflexivity]|].
    split; [left; reflexivity|]. split; [simpl; repeat (first [left; reflexivity | right]) | reflexivity].
Qed.
Print Assumptions C86_scoped_refuted.

(** The same file imported by two declarations under different names is bound
    only in the first. *)
Theorem C86_alias_refuted :
  exists files c d n s,
    no_clash files /\ translate_unit files 3 0 = Some c /\
    In d (udecls (files 0)) /\ In (Import (Some n) 1) (dimports d) /\ In n (drefs d) /\
    In (s, 0, drefs d) (places [] c) /\ resolve s n = None.
Proof.
  set (files := fun f => match f with
    | 0 => SourceUnit [] [Decl 10 [Import (Some 30) 1] [30]; Decl 20 [Import (Some 31) 1] [31]]
    | 1 => SourceUnit [] [Decl 12 [] []]
    | _ => SourceUnit [] [] end).
  exists files. eexists. exists (Decl 20 [Import (Some 31) 1] [31]), 31. eexists.
  split; [|split; [reflexivity|]].
  - assert (SF : forall n w, stands_for files n w ->
       w = match n with 10 => Declared 0 | 20 => Declared 0 | 12 => Declared 1 | _ => Namespace 1 end).
    { intros n w [(f & -> & d & D & <-) | (f & g & -> & [I_ | (d & D & I_)])].
      - destruct f as [|[|f]]; simpl in D;
          repeat match goal with H : _ \/ _ |- _ => destruct H | H : False |- _ => destruct H
                 | H : Decl _ _ _ = _ |- _ => subst d end; reflexivity.
      - exfalso. destruct f as [|[|f]]; simpl in I_; destruct I_.
      - destruct f as [|[|f]]; simpl in D;
          repeat match goal with H : _ \/ _ |- _ => destruct H | H : False |- _ => destruct H
                 | H : Decl _ _ _ = _ |- _ => subst d; simpl in I_
                 | H : Import _ _ = Import _ _ |- _ => injection H as <- <- end; reflexivity. }
    intros n w w' A B. rewrite (SF _ _ A), (SF _ _ B). reflexivity.
  - split; [right; left; reflexivity|]. split; [left; reflexivity|]. split; [left; reflexivity|].
    split; [simpl; repeat (first [left; reflexivity | right]) | reflexivity].
Qed.
Print Assumptions C86_alias_refuted.
