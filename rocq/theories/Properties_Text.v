(** C23-C26: globs, scopes, range text and bit-range arithmetic. *)
From Coq Require Import Ascii String.
From Verif Require Import Base M_Range M_Netlist M_Text S_Text M_Query S_Query P_Query P_Text.
Local Open Scope Z_scope.
Notation length := List.length.

(** ** C23. The matcher terminates (the fuel |pattern|+1 is never exhausted) and decides
    the language of the unique reading of the pattern. *)
Theorem c23_glob_exact : forall text pat, exists b ts,
  wildcardMatch text pat = Some b /\ Lex pat ts /\ (forall ts', Lex pat ts' -> ts' = ts) /\
  (b = true <-> Matches ts text).
Proof. exact c23. Qed.
Print Assumptions c23_glob_exact.
Example c23_documented :
  wildcardMatch (lit "a.b") (lit "a.**.b") = Some true /\
  wildcardMatch (lit "a.x.y.b") (lit "a.....b") = Some true /\
  wildcardMatch (lit "ab") (lit "a.**.b") = Some false /\
  wildcardMatch (lit "a.x") (lit "a*") = Some false /\
  wildcardMatch (lit "a.x") (lit "a**") = Some true /\
  wildcardMatch (lit "a.x") (lit "a.?") = Some true /\
  wildcardMatch (lit "a.x") (lit "a??") = Some false /\
  Lex (lit "a.**") [TLit "a"%char; TRec true false].
Proof.
  repeat split; try (vm_compute; reflexivity).
  apply (plain_lex (lit "a")). split; [|split].
  - intros [C|[]]. discriminate.
  - intros [C|[]]. discriminate.
  - intros u v C. apply (f_equal (@length ascii)) in C. rewrite !app_length in C. simpl in C. lia.
Qed.

(** The two spellings of the recursive wildcard are not interchangeable as text: an
    adjacent dot runs into `...'. *)
Theorem c23_spellings_interchangeable_refuted : ~ (forall text u v,
  wildcardMatch text (u ++ lit "**" ++ v) = wildcardMatch text (u ++ lit "..." ++ v)).
Proof. intros H. specialize (H (lit "x.b") [] (lit ".b")). vm_compute in H. discriminate. Qed.
Print Assumptions c23_spellings_interchangeable_refuted.
(** They are when no other dot or star touches them, or exactly one dot precedes them. *)
Theorem c23_spellings_interchangeable_partial : forall text u v, NoTail u ->
  (hd_error v <> Some "."%char ->
   wildcardMatch text (u ++ lit "**" ++ v) = wildcardMatch text (u ++ lit "..." ++ v)) /\
  wildcardMatch text (u ++ lit "." ++ lit "**" ++ v) = wildcardMatch text (u ++ lit "." ++ lit "..." ++ v).
Proof. intros. split; [now apply c23_spelling_plain|now apply c23_spelling_dot]. Qed.
Print Assumptions c23_spellings_interchangeable_partial.
Example c23_spellings_nonvacuous : NoTail (lit "a.b") /\ hd_error (lit "x") <> Some "."%char.
Proof.
  split; [|discriminate]. intros w c E.
  assert (L : last (lit "a.b") " "%char = c) by (rewrite E; apply last_last).
  vm_compute in L. subst c. split; discriminate.
Qed.

(** ** C24 *)
Theorem c24_scope_exact : forall p s, pathInScope p s = true <-> InScope p s.
Proof. exact c24. Qed.
Print Assumptions c24_scope_exact.
Theorem c24_scope_preorder :
  (forall p, pathInScope p p = true) /\
  (forall a b c, pathInScope a b = true -> pathInScope b c = true -> pathInScope a c = true).
Proof. split; [exact c24_refl|exact c24_trans]. Qed.
Print Assumptions c24_scope_preorder.
(** Agreement with the glob s.** ; [Plain] also excludes scopes whose own dots would
    read as `...', see [c24_glob_dots_refuted]. *)
Theorem c24_scope_is_glob : forall p s, Plain s ->
  (pathInScope p s = true <-> wildcardMatch p (s ++ lit ".**") = Some true).
Proof. exact c24_glob. Qed.
Print Assumptions c24_scope_is_glob.
Theorem c24_glob_dots_refuted : ~ (forall p s, ~ In "*"%char s -> ~ In "?"%char s ->
  (pathInScope p s = true <-> wildcardMatch p (s ++ lit ".**") = Some true)).
Proof.
  intros H. specialize (H (lit "ax") (lit "a...")). 
  assert (K : wildcardMatch (lit "ax") (lit "a....**") = Some true) by (vm_compute; reflexivity).
  apply H in K.
  - vm_compute in K. discriminate.
  - simpl. intuition discriminate.
  - simpl. intuition discriminate.
Qed.
Print Assumptions c24_glob_dots_refuted.
Example c24_nonvacuous :
  pathInScope (lit "m.u.x") (lit "m.u") = true /\ pathInScope (lit "m.ux") (lit "m.u") = false /\
  Plain (lit "m.u").
Proof.
  split; [reflexivity|]. split; [reflexivity|]. split; [|split].
  - simpl. intuition discriminate.
  - simpl. intuition discriminate.
  - intros u v C. simpl in C.
    destruct u as [|? [|? [|? [|? u]]]]; simpl in C; inversion C; subst;
      try discriminate; destruct u; discriminate.
Qed.

(** ** C25 *)
Theorem c25_parse_inverts_print : forall path r, int32 (rleft r) -> int32 (rright r) ->
  parseNameAndRange (path ++ range_toString r) = (path, Some (Range (upper r) (lower r))).
Proof. exact c25_round. Qed.
Print Assumptions c25_parse_inverts_print.
Theorem c25_parse_exact : forall s,
  (forall p r, parseNameAndRange s = (p, Some r) <-> RangeText s p r) /\
  ((forall p r, ~ RangeText s p r) -> parseNameAndRange s = (s, None)).
Proof.
  intros s. split; [intros p r; split; [apply c25_fwd|apply c25_bwd]|apply c25_whole].
Qed.
Print Assumptions c25_parse_exact.
Example c25_nonvacuous :
  parseNameAndRange (lit "m.a[7:0]") = (lit "m.a", Some (Range 7 0)) /\
  parseNameAndRange (lit "m.a[3][-2]") = (lit "m.a[3]", Some (Range (-2) (-2))) /\
  parseNameAndRange (lit "m.a[2147483648]") = (lit "m.a[2147483648]", None) /\
  parseNameAndRange (lit "m.a[7:]") = (lit "m.a[7:]", None) /\
  range_toString (Range (-2147483648) 2147483647) = lit "[2147483647:-2147483648]" /\
  int32 (-2147483648) /\ int32 2147483647.
Proof. repeat split; try (vm_compute; reflexivity); unfold int32, int32_min, int32_max; lia. Qed.

(** ** C26 *)
Theorem c26_intersection_exact : forall a b,
  match intersection a b with
  | Some r => (forall x, InRange x r <-> InRange x a /\ InRange x b) /\
              rleft r <= rright r /\ (exists x, InRange x r)
  | None => forall x, ~ (InRange x a /\ InRange x b)
  end.
Proof. exact intersection_spec. Qed.
Print Assumptions c26_intersection_exact.
Theorem c26_union_exact : forall a b u, unionWith a b = Some u ->
  forall x, InRange x u <-> InRange x a \/ InRange x b.
Proof. exact union_spec. Qed.
Print Assumptions c26_union_exact.
(** "no gap": every position between two members is a member. *)
Theorem c26_contiguous_partial : forall a b, int32 (upper a + 1) -> int32 (upper b + 1) ->
  isContiguousWith a b = isContiguousWith b a /\
  exists c, isContiguousWith a b = Some c /\
    (c = true <-> forall x y z, (InRange x a \/ InRange x b) -> (InRange z a \/ InRange z b) ->
                   x <= y <= z -> InRange y a \/ InRange y b).
Proof. intros. split; [now apply contiguous_sym|now apply contiguous_spec]. Qed.
Print Assumptions c26_contiguous_partial.
(** The additions overflow exactly when an upper bound that is reached is INT32_MAX. *)
Theorem c26_no_overflow_refuted : ~ (forall a b,
  int32 (rleft a) -> int32 (rright a) -> int32 (rleft b) -> int32 (rright b) ->
  isContiguousWith a b <> None).
Proof.
  intros H. apply (H (Range int32_max 0) (Range 3 0)); try (unfold int32, int32_min, int32_max; simpl; lia).
  vm_compute. reflexivity.
Qed.
Print Assumptions c26_no_overflow_refuted.
Theorem c26_overflow_exact : forall a b, int32 (upper a) ->
  (isContiguousWith a b = None <->
   upper a = int32_max \/ (upper a < int32_max /\ lower b <= upper a + 1 /\ ~ int32 (upper b + 1))).
Proof. exact contiguous_overflow. Qed.
Print Assumptions c26_overflow_exact.
Example c26_nonvacuous :
  intersection (Range 7 3) (Range 0 4) = Some (Range 3 4) /\ intersection (Range 7 5) (Range 0 4) = None /\
  unionWith (Range 7 5) (Range 0 4) = Some (Range 0 7) /\ isContiguousWith (Range 7 5) (Range 0 3) = Some false /\
  int32 (upper (Range 7 5) + 1).
Proof. repeat split; try (vm_compute; reflexivity); vm_compute; discriminate. Qed.
