(** Property C57: the canonical-body resolver. *)
From Verif Require Import Base M_Canon S_Canon P_Canon.

(** * C57: CanonicalBodyResolver maps a symbol of a non-canonical instance body to the
    symbol at the same structural position of the canonical body, is the identity on
    canonical symbols, and memoisation does not change results. *)
Section C.
Variable members : nat -> list mem.
Variable direct : nat -> option nat.
Variable up : nat -> option nat.
Variable home : nat -> option nat.
Variable chain : nat -> list nat.
Notation history qs := (after members direct chain home no_caches qs).
Notation body_of st b := (snd (getCanonicalBody members direct chain st b)).
Notation value_of st v := (snd (getCanonicalValue members direct chain home st v)).
Notation Canon := (Canon members direct up).
Notation CanonV := (CanonV members direct up home).

(** After any queries, the answer is the canonical body or symbol of the specification ... *)
Lemma canon_body : ast_ok members direct up home chain -> forall qs b, Canon b (body_of (history qs) b).
Proof. intros OK qs b. apply (body_query members direct up home chain OK). apply after_good; [exact OK|apply good_empty]. Qed.
Lemma canon_value : ast_ok members direct up home chain -> forall qs v, CanonV v (value_of (history qs) v).
Proof. intros OK qs v. apply (value_query members direct up home chain OK). apply after_good; [exact OK|apply good_empty]. Qed.
(** ... of which there is one. *)
Lemma canon_memo : ast_ok members direct up home chain -> forall qs qs' q,
  snd (ask members direct chain home (history qs) q) = snd (ask members direct chain home (history qs') q).
Proof.
  intros OK qs qs' [b|v]; cbn [ask].
  - exact (Canon_fun _ _ _ _ _ OK _ _ (canon_body OK qs' b) _ (canon_body OK qs b)).
  - exact (CanonV_fun _ _ _ _ _ OK _ _ (canon_value OK qs' v) _ (canon_value OK qs v)).
Qed.
Lemma canon_identity : ast_ok members direct up home chain -> forall b, Canon b b ->
  forall qs, body_of (history qs) b = b /\ forall v, home v = Some b -> value_of (history qs) v = v.
Proof.
  intros OK b C qs. split; [exact (Canon_fun _ _ _ _ _ OK _ _ C _ (canon_body OK qs b))|].
  intros v H. refine (CanonV_fun _ _ _ _ _ OK _ _ _ _ (canon_value OK qs v)). eapply cv_inside; eauto.
Qed.
Lemma canon_position : ast_ok members direct up home chain -> forall p c way i v w, Canon p c -> c <> p ->
  at_pos (members p) way i = Some (MVal v) -> at_pos (members c) way i = Some (MVal w) -> forall qs, value_of (history qs) v = w.
Proof.
  intros OK p c way i v w C Ne A B qs. refine (CanonV_fun _ _ _ _ _ OK _ _ _ _ (canon_value OK qs v)).
  eapply cv_pair; [exact (ok_home _ _ _ _ _ OK _ _ _ _ A)|exact C|exact Ne|]. exists way, i. auto.
Qed.
Lemma canon_instance : ast_ok members direct up home chain -> forall p c way i b ms b' ms', Canon p c -> c <> p ->
  at_pos (members p) way i = Some (MInst b ms) -> at_pos (members c) way i = Some (MInst b' ms') ->
  forall qs, body_of (history qs) b = target direct b'.
Proof.
  intros OK p c way i b ms b' ms' C Ne A B qs. refine (Canon_fun _ _ _ _ _ OK _ _ _ _ (canon_body OK qs b)).
  exact (proj1 (proj1 (pre_body _ _ _ _ _ OK p c C Ne) way i b ms b' ms' A B)).
Qed.
Lemma same_at : forall way ms cs i, Forall2 same_mem ms cs -> forall m, at_pos ms way i = Some m -> exists m', at_pos cs way i = Some m' /\ same_mem m m'.
Proof.
  assert (N : forall (ms cs : list mem) i, Forall2 same_mem ms cs -> forall m, nth_error ms i = Some m -> exists m', nth_error cs i = Some m' /\ same_mem m m').
  { intros ms cs i F. revert i. induction F as [|x y ms cs S F IH]; intros [|i] m E; cbn in *; try discriminate; [injection E as <-; eauto|eauto]. }
  induction way as [|[j k] way IH]; intros ms cs i F m E; cbn in *; [eauto|].
  destruct (nth_error ms j) as [z|] eqn:Ez; [|discriminate]. destruct (N _ _ _ F _ Ez) as (z' & Ez' & S). rewrite Ez'.
  destruct z as [v|b bs|k' zs|k' zs]; try discriminate. inversion S; subst. destruct (pkind_eqb k k'); [eauto|discriminate].
Qed.
(** Structurally equal scopes: every value of the one has its value in the other. *)
Lemma canon_structure : ast_ok members direct up home chain -> forall p c, Canon p c -> c <> p -> Forall2 same_mem (members p) (members c) ->
  forall way i v, at_pos (members p) way i = Some (MVal v) ->
  exists w, at_pos (members c) way i = Some (MVal w) /\ forall qs, value_of (history qs) v = w.
Proof.
  intros OK p c C Ne F way i v A. destruct (same_at way _ _ i F _ A) as (m & B & S). inversion S; subst. exists w. split; [exact B|].
  intros qs. eapply canon_position; eauto.
Qed.
(** The answer is final when the pointers are. *)
Lemma canon_final : (forall b d, direct b = Some d -> Canon d d) -> (forall p way i b ms, at_pos (members p) way i = Some (MInst b ms) -> up b = Some p) ->
  forall b c, Canon b c -> Canon c c.
Proof.
  intros D U b c C. induction C as [b d E Ne|b N Ub|b p N Ub C IH|b p c b' N Ub C IH Ne P|b p c N Ub C IH Ne A].
  - eauto.
  - now apply can_top.
  - eapply can_inside; eauto.
  - unfold target. destruct (direct b') as [d|] eqn:E; [eauto|]. destruct P as (way & i & ms & ms' & A & B).
    eapply can_inside; [now left|eapply U; exact B|exact IH].
  - eapply can_alone; eauto.
Qed.
End C.

Theorem c57_body : forall members direct up home chain, ast_ok members direct up home chain -> forall qs b,
  Canon members direct up b (snd (getCanonicalBody members direct chain (after members direct chain home no_caches qs) b)).
Proof. exact canon_body. Qed.
Print Assumptions c57_body.
Theorem c57_value : forall members direct up home chain, ast_ok members direct up home chain -> forall qs v,
  CanonV members direct up home v (snd (getCanonicalValue members direct chain home (after members direct chain home no_caches qs) v)).
Proof. exact canon_value. Qed.
Print Assumptions c57_value.
Theorem c57_memo : forall members direct up home chain, ast_ok members direct up home chain -> forall qs qs' q,
  snd (ask members direct chain home (after members direct chain home no_caches qs) q) =
  snd (ask members direct chain home (after members direct chain home no_caches qs') q).
Proof. exact canon_memo. Qed.
Print Assumptions c57_memo.
Theorem c57_identity : forall members direct up home chain, ast_ok members direct up home chain -> forall b, Canon members direct up b b -> forall qs,
  snd (getCanonicalBody members direct chain (after members direct chain home no_caches qs) b) = b /\
  forall v, home v = Some b -> snd (getCanonicalValue members direct chain home (after members direct chain home no_caches qs) v) = v.
Proof. exact canon_identity. Qed.
Print Assumptions c57_identity.
(** The values reached through generate blocks, generate block arrays and instance arrays. *)
Theorem c57_structure_partial : forall members direct up home chain, ast_ok members direct up home chain ->
  forall p c, Canon members direct up p c -> c <> p -> Forall2 same_mem (members p) (members c) ->
  forall way i v, at_pos (members p) way i = Some (MVal v) ->
  exists w, at_pos (members c) way i = Some (MVal w) /\
    forall qs, snd (getCanonicalValue members direct chain home (after members direct chain home no_caches qs) v) = w.
Proof. exact canon_structure. Qed.
Print Assumptions c57_structure_partial.
Theorem c57_instance : forall members direct up home chain, ast_ok members direct up home chain ->
  forall p c way i b ms b' ms', Canon members direct up p c -> c <> p ->
  at_pos (members p) way i = Some (MInst b ms) -> at_pos (members c) way i = Some (MInst b' ms') ->
  forall qs, snd (getCanonicalBody members direct chain (after members direct chain home no_caches qs) b) = target direct b'.
Proof. exact canon_instance. Qed.
Print Assumptions c57_instance.
Theorem c57_final : forall members direct up,
  (forall b d, direct b = Some d -> Canon members direct up d d) ->
  (forall p way i b ms, at_pos (members p) way i = Some (MInst b ms) -> up b = Some p) ->
  forall b c, Canon members direct up b c -> Canon members direct up c c.
Proof. intros members direct up. exact (canon_final members direct up). Qed.
Print Assumptions c57_final.

(** * An example *)
(** Top 0 with instances 1 and 2 of one module; 2 points to 1.  The module has a value, a
    generate block with a value, and two instances of a leaf, the second pointing to the
    first. *)
Definition l3 := [MVal 12].  Definition l4 := [MVal 13].  Definition l5 := [MVal 22].  Definition l6 := [MVal 23].
Definition m1 := [MVal 10; MScope PGen [MVal 11; MInst 3 l3]; MInst 4 l4; MOther 7 [MVal 14]].
Definition m2 := [MVal 20; MScope PGen [MVal 21; MInst 5 l5]; MInst 6 l6; MOther 7 [MVal 24]].
Definition xmembers (b : nat) : list mem :=
  match b with 0 => [MInst 1 m1; MInst 2 m2] | 1 => m1 | 2 => m2 | 3 => l3 | 4 => l4 | 5 => l5 | 6 => l6 | _ => [] end.
Definition xdirect (b : nat) : option nat := match b with 2 => Some 1 | 4 => Some 3 | _ => None end.
Definition xup (b : nat) : option nat := match b with 1 | 2 => Some 0 | 3 | 4 => Some 1 | 5 | 6 => Some 2 | _ => None end.
Definition xchain (b : nat) : list nat := b :: match b with 1 | 2 => [0] | 3 | 4 => [1; 0] | 5 | 6 => [2; 0] | _ => [] end.
Definition xhome (v : nat) : option nat :=
  match v with 10 | 11 | 14 => Some 1 | 20 | 21 | 24 => Some 2 | 12 => Some 3 | 13 => Some 4 | 22 => Some 5 | 23 => Some 6 | _ => None end.
Ltac spot H := match type of H with
  | at_pos _ ?way ?i = Some _ => destruct way as [|[[|[|[|[|[|?]]]]] []] way]; cbn in H; try discriminate
  | nth_error _ ?i = Some _ => destruct i as [|[|[|[|[|i]]]]]; cbn in H; try discriminate
  | nth_error [] ?i = Some _ => destruct i; discriminate
  end.
Ltac spots := repeat match goal with H : at_pos _ _ _ = Some _ |- _ => spot H | H : nth_error _ _ = Some _ |- _ => spot H end.
Lemma x_ok : ast_ok xmembers xdirect xup xhome xchain.
Proof.
  constructor.
  - intros p way i b ms H. do 7 (destruct p as [|p]; [cbn in H; spots; injection H as <- <-; split; reflexivity|]). destruct way as [|[[|?] ?] ?]; cbn in H; [destruct i|..]; discriminate.
  - intros p way i v H. do 7 (destruct p as [|p]; [cbn in H; spots; injection H as <-; reflexivity|]). destruct way as [|[[|?] ?] ?]; cbn in H; [destruct i|..]; discriminate.
  - intros p way i b ms way' i' ms' H H'. do 7 (destruct p as [|p]; [cbn in H, H'; spots; injection H as <- <-; try discriminate; injection H' as <-; auto|]).
    destruct way as [|[[|?] ?] ?]; cbn in H; [destruct i|..]; discriminate.
  - intros p way i v way' i' H H'. do 7 (destruct p as [|p]; [cbn in H, H'; spots; injection H as <-; try discriminate; auto|]).
    destruct way as [|[[|?] ?] ?]; cbn in H; [destruct i|..]; discriminate.
  - intros b. do 7 (destruct b as [|b]; [reflexivity|]). reflexivity.
  - intros b d p c b' D Ne U C Nc P. exfalso.
    assert (C0 : forall c, Canon xmembers xdirect xup 0 c -> c = 0) by (intros x X; inversion X; subst; auto; discriminate).
    assert (C1 : forall c, Canon xmembers xdirect xup 1 c -> c = 1).
    { intros x X. inversion X; subst; auto; try discriminate. cbn in H0. injection H0 as <-. apply C0 in H1. congruence. }
    do 7 (destruct b as [|b]; [try discriminate; cbn in U; injection U as <-; first [apply C0 in C|apply C1 in C]; congruence|]). discriminate.
Qed.
Example c57_values : map (fun v => snd (getCanonicalValue xmembers xdirect xchain xhome no_caches v)) [10; 11; 12; 13; 20; 21; 22; 23] =
  [10; 11; 12; 12; 10; 11; 12; 12].
Proof. vm_compute. reflexivity. Qed.
(** The order of the queries fills the caches differently. *)
Example c57_orders :
  let ask_all qs := fst (fold_left (fun a q => let (st, r) := ask xmembers xdirect xchain xhome (snd a) q in (fst a ++ [r], st)) qs ([], no_caches)) in
  ask_all [QBody 6; QValue 22; QBody 2; QValue 23] = [3; 12; 1; 12] /\ ask_all [QValue 23; QBody 0; QBody 2; QValue 22; QBody 6] = [12; 0; 1; 12; 3].
Proof. vm_compute. auto. Qed.

(** * Refuted: values in other scopes, such as statement blocks, keep the local symbol.
    [at_any] goes through every scope. *)
Fixpoint at_any (ms : list mem) (way : list nat) (i : nat) : option mem :=
  match way with
  | [] => nth_error ms i
  | j :: r => match nth_error ms j with Some (MScope _ ms') => at_any ms' r i | Some (MOther _ ms') => at_any ms' r i | _ => None end
  end.
Definition Full_c57 : Prop := forall members direct up home chain, ast_ok members direct up home chain ->
  forall p c, Canon members direct up p c -> c <> p -> Forall2 same_mem (members p) (members c) ->
  forall way i v, at_any (members p) way i = Some (MVal v) -> home v = Some p ->
  exists w, at_any (members c) way i = Some (MVal w) /\ forall qs,
    snd (getCanonicalValue members direct chain home (after members direct chain home no_caches qs) v) = w.
Theorem c57_other_scope_refuted : ~ Full_c57.
Proof.
  intros H. destruct (H xmembers xdirect xup xhome xchain x_ok 2 1) with (way := [3]) (i := 0) (v := 24) as (w & A & Q).
  - now constructor.
  - discriminate.
  - repeat constructor.
  - reflexivity.
  - reflexivity.
  - specialize (Q []). vm_compute in A, Q. injection A as <-. discriminate.
Qed.
Print Assumptions c57_other_scope_refuted.

(** Memoisation is unobservable because slang sets pointers on outermost instances only: a
    pointer further in that disagrees is seen or not, depending on what was asked first. *)
Definition zdirect (b : nat) : option nat := match b with 2 => Some 1 | 6 => Some 3 | _ => None end.
Example c57_inner_pointer :
  let ask_all qs := fst (fold_left (fun a q => let (st, r) := ask xmembers zdirect xchain xhome (snd a) q in (fst a ++ [r], st)) qs ([], no_caches)) in
  ask_all [QBody 6; QValue 23] = [3; 12] /\ ask_all [QBody 5; QBody 6; QValue 23] = [3; 4; 13].
Proof. vm_compute. auto. Qed.
