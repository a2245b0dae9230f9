(** Proofs about canonical bodies. *)
From Verif Require Import Base M_Canon S_Canon.

Lemma pkind_eqb_eq a b : pkind_eqb a b = true <-> a = b.
Proof. destruct a, b; cbn; split; congruence. Qed.

Section C.
Variable members : nat -> list mem.
Variable direct : nat -> option nat.
Variable up : nat -> option nat.
Variable home : nat -> option nat.
Variable chain : nat -> list nat.
Variable OK : ast_ok members direct up home chain.
Notation paired := (paired members).
Notation vpaired := (vpaired members).
Notation target := (target direct).
Notation no_pointer := (no_pointer direct).
Notation Canon := (Canon members direct up).
Notation CanonV := (CanonV members direct up home).
Notation pair_mem := (pair_mem members direct).
Notation pair_list := (pair_list members direct).

Lemma paired_fun p b c b1 b2 : paired p b c b1 -> paired p b c b2 -> b1 = b2.
Proof.
  intros (w & i & ms & ms' & A & B) (w2 & i2 & ns & ns' & A2 & B2).
  destruct (ok_place _ _ _ _ _ OK _ _ _ _ _ _ _ _ A A2) as (-> & ->). congruence.
Qed.
Lemma vpaired_fun p v c w1 w2 : vpaired p v c w1 -> vpaired p v c w2 -> w1 = w2.
Proof.
  intros (w & i & A & B) (w' & i2 & A2 & B2).
  destruct (ok_vplace _ _ _ _ _ OK _ _ _ _ _ _ A A2) as (-> & ->). congruence.
Qed.
Lemma no_pointer_not b d : no_pointer b -> direct b = Some d -> d = b.
Proof. unfold S_Canon.no_pointer. intros [E|E] Q; congruence. Qed.
Lemma Canon_fun b c : Canon b c -> forall c', Canon b c' -> c' = c.
Proof.
  intros C. induction C as [b d D Ne|b N U|b p N U C IH|b p c b' N U C IH Ne P|b p c N U C IH Ne A]; intros x X; inversion X; subst;
    try (match goal with N : no_pointer ?b, D : direct ?b = Some ?d, Q : ?d <> ?b |- _ => destruct (Q (no_pointer_not b d N D)) end);
    try congruence;
    repeat match goal with U : up ?b = Some ?p, U' : up ?b = Some ?q |- _ => rewrite U in U'; injection U' as U'; subst end.
  - specialize (IH _ H1). congruence.
  - specialize (IH _ H1). congruence.
  - specialize (IH _ H1). subst. rewrite (paired_fun _ _ _ _ _ P H3). reflexivity.
  - specialize (IH _ H1). subst. destruct (H3 _ P).
  - specialize (IH _ H1). subst. destruct (A _ H3).
Qed.
Lemma CanonV_fun v w : CanonV v w -> forall w', CanonV v w' -> w' = w.
Proof.
  intros C w' C'. destruct C as [v H|v p H P|v p c w H P Ne Q|v p c H P Ne Q]; inversion C' as [v1 H1|v1 p1 H1 P1|v1 p1 c1 w1 H1 P1 Ne1 Q1|v1 p1 c1 H1 P1 Ne1 Q1]; subst; try congruence;
    rewrite H in H1; injection H1 as <-; pose proof (Canon_fun _ _ P _ P1); subst; try congruence.
  - eapply vpaired_fun; eauto.
  - destruct (Q1 _ Q).
  - destruct (Q _ Q1).
Qed.

(** * The caches *)
Definition Sound (st : caches) : Prop :=
  (forall b c, bcache st b = Some c -> Canon b c) /\ (forall v w, vcache st v = Some w -> CanonV v w).
Definition ext (st st' : caches) : Prop :=
  (forall b c, bcache st b = Some c -> bcache st' b = Some c) /\ (forall v w, vcache st v = Some w -> vcache st' v = Some w).
Definition closed_at (st : caches) (b c : nat) : Prop :=
  (forall v w, vpaired b v c w -> vcache st v <> None) /\ (forall x x', paired b x c x' -> bcache st x <> None).
Definition Closed (st : caches) : Prop := forall b c, bcache st b = Some c -> c <> b -> closed_at st b c.
Definition Post (st st' : caches) : Prop :=
  Sound st' /\ ext st st' /\ forall b c, bcache st' b = Some c -> c <> b -> bcache st b = Some c \/ closed_at st' b c.
Definition pre (ls cs : list mem) : Prop :=
  (forall way i b ms b' ms', at_pos ls way i = Some (MInst b ms) -> at_pos cs way i = Some (MInst b' ms') ->
     Canon b (target b') /\ members b = ms /\ members b' = ms') /\
  (forall way i v w, at_pos ls way i = Some (MVal v) -> at_pos cs way i = Some (MVal w) -> CanonV v w).
Definition reg (ls cs : list mem) (st : caches) : Prop :=
  (forall way i b ms b' ms', at_pos ls way i = Some (MInst b ms) -> at_pos cs way i = Some (MInst b' ms') -> bcache st b <> None) /\
  (forall way i v w, at_pos ls way i = Some (MVal v) -> at_pos cs way i = Some (MVal w) -> vcache st v <> None).

Lemma ext_refl st : ext st st.
Proof. split; auto. Qed.
Lemma ext_trans a b c : ext a b -> ext b c -> ext a c.
Proof. intros (A1 & A2) (B1 & B2). split; auto. Qed.
Lemma ext_some_b a b x : ext a b -> bcache a x <> None -> bcache b x <> None.
Proof. intros (E & _) H. destruct (bcache a x) as [c|] eqn:Q; [|congruence]. rewrite (E _ _ Q). discriminate. Qed.
Lemma ext_some_v a b x : ext a b -> vcache a x <> None -> vcache b x <> None.
Proof. intros (_ & E) H. destruct (vcache a x) as [c|] eqn:Q; [|congruence]. rewrite (E _ _ Q). discriminate. Qed.
Lemma closed_ext a b x c : ext a b -> closed_at a x c -> closed_at b x c.
Proof. intros E (H1 & H2). split; intros; [eapply ext_some_v|eapply ext_some_b]; eauto. Qed.
Lemma reg_ext a b ls cs : ext a b -> reg ls cs a -> reg ls cs b.
Proof. intros E (H1 & H2). split; intros; [eapply ext_some_b|eapply ext_some_v]; eauto. Qed.
Lemma Post_refl st : Sound st -> Post st st.
Proof. intros S. split; [exact S|]. split; [apply ext_refl|]. auto. Qed.
Lemma Post_trans a b c : Post a b -> Post b c -> Post a c.
Proof.
  intros (S1 & E1 & C1) (S2 & E2 & C2). split; [exact S2|]. split; [eapply ext_trans; eauto|].
  intros x y Q Ne. destruct (C2 x y Q Ne) as [Q1|K]; [|auto]. destruct (C1 x y Q1 Ne) as [Q2|K]; [auto|right; eapply closed_ext; eauto].
Qed.
Lemma Post_closed st st' : Post st st' -> Closed st -> Closed st'.
Proof. intros (S & E & C) K b c Q Ne. destruct (C b c Q Ne) as [Q1|J]; [eapply closed_ext; eauto|exact J]. Qed.

Lemma emplace_some c k v : emplace c k v k <> None.
Proof. unfold emplace. destruct (c k) as [x|] eqn:E; [congruence|]. rewrite upd_same. discriminate. Qed.
Lemma emplace_old c k v x y : c x = Some y -> emplace c k v x = Some y.
Proof. unfold emplace. intros E. destruct (c k) as [z|] eqn:Q; [exact E|]. destruct (Nat.eq_dec x k) as [->|N]; [congruence|]. now rewrite upd_other. Qed.
Lemma emplace_inv c k v x y : emplace c k v x = Some y -> c x = Some y \/ (x = k /\ y = v /\ c k = None).
Proof.
  unfold emplace. destruct (c k) as [z|] eqn:Q; [auto|]. destruct (Nat.eq_dec x k) as [->|N]; [rewrite upd_same; intros [= <-]; auto|rewrite upd_other by exact N; auto].
Qed.
Lemma add_body st b c : Sound st -> Canon b c -> let st1 := Caches (vcache st) (emplace (bcache st) b c) in
  Sound st1 /\ ext st st1 /\ bcache st1 b = Some c /\ (forall x y, bcache st1 x = Some y -> bcache st x = Some y \/ (x = b /\ y = c)).
Proof.
  intros (S1 & S2) C st1. split; [|split; [|split]].
  - split; [|exact S2]. intros x y Q. apply emplace_inv in Q. destruct Q as [Q|(-> & -> & _)]; auto.
  - split; [|auto]. intros x y Q. now apply emplace_old.
  - cbn. unfold emplace. destruct (bcache st b) as [z|] eqn:Q; [|apply upd_same]. rewrite Q. now rewrite (Canon_fun _ _ C z (S1 _ _ Q)).
  - intros x y Q. apply emplace_inv in Q. destruct Q as [Q|(-> & -> & _)]; auto.
Qed.
Lemma add_value st v w : Sound st -> CanonV v w -> let st1 := Caches (emplace (vcache st) v w) (bcache st) in Post st st1.
Proof.
  intros (S1 & S2) C st1. split; [|split; [|auto]].
  - split; [exact S1|]. intros x y Q. apply emplace_inv in Q. destruct Q as [Q|(-> & -> & _)]; auto.
  - split; [auto|]. intros x y Q. now apply emplace_old.
Qed.

(** The members of paired bodies are paired. *)
Lemma pre_body b c : Canon b c -> c <> b -> pre (members b) (members c).
Proof.
  intros C Ne. split.
  - intros way i x ms x' ms' A B. pose proof (ok_members _ _ _ _ _ OK _ _ _ _ _ A) as (M1 & U). pose proof (ok_members _ _ _ _ _ OK _ _ _ _ _ B) as (M2 & _).
    split; [|auto]. assert (P : paired b x c x') by (exists way, i, ms, ms'; auto).
    destruct (direct x) as [d|] eqn:D.
    + destruct (Nat.eq_dec d x) as [->|N].
      * eapply can_pair; eauto. now right.
      * rewrite <- (ok_inner _ _ _ _ _ OK x d b c x' D N U C Ne P). now constructor.
    + eapply can_pair; eauto. now left.
  - intros way i v w A B. eapply cv_pair; [exact (ok_home _ _ _ _ _ OK _ _ _ _ A)|exact C|exact Ne|]. exists way, i. auto.
Qed.

Fixpoint mem_rect' (P : mem -> Prop) (fV : forall v, P (MVal v)) (fI : forall b ms, Forall P ms -> P (MInst b ms))
  (fS : forall k ms, Forall P ms -> P (MScope k ms)) (fO : forall k ms, P (MOther k ms)) (m : mem) : P m :=
  let all := fix all (l : list mem) : Forall P l :=
    match l with [] => Forall_nil P | x :: r => Forall_cons x (mem_rect' P fV fI fS fO x) (all r) end in
  match m with
  | MVal v => fV v
  | MInst b ms => fI b ms (all ms)
  | MScope k ms => fS k ms (all ms)
  | MOther k ms => fO k ms
  end.
Lemma pair_mem_eq l c st : pair_mem l c st =
  match l, c with
  | MVal v, MVal w => Caches (emplace (vcache st) v w) (bcache st)
  | MInst b ms, MInst b' ms' =>
      let (cb, cms) := match direct b' with Some d => (d, members d) | None => (b', ms') end in
      let st1 := Caches (vcache st) (emplace (bcache st) b cb) in
      if b =? cb then st1 else pair_list ms cms st1
  | MScope k ms, MScope k' ms' => if pkind_eqb k k' then pair_list ms ms' st else st
  | _, _ => st
  end.
Proof.
  destruct l as [v|b ms|k ms|k ms], c as [w|b' ms'|k' ms'|k' ms']; reflexivity.
Qed.

Definition works (l : mem) : Prop := forall c st, Sound st -> pre [l] [c] -> Post st (pair_mem l c st) /\ reg [l] [c] (pair_mem l c st).
Lemma at_head l ls way i : (exists k r, way = (0, k) :: r) \/ (way = [] /\ i = 0) -> at_pos (l :: ls) way i = at_pos [l] way i.
Proof. intros [(k & r & ->)|(-> & ->)]; reflexivity. Qed.
Lemma pre_cons l ls c cs : pre (l :: ls) (c :: cs) -> pre [l] [c] /\ pre ls cs.
Proof.
  intros (P1 & P2). split; split.
  - intros way i b ms b' ms' A B. destruct way as [|[[|j] k] r].
    + destruct i as [|i]; [apply (P1 [] 0); assumption|destruct i; discriminate].
    + apply (P1 ((0, k) :: r) i); assumption.
    + cbn in A. destruct j; discriminate.
  - intros way i v w A B. destruct way as [|[[|j] k] r].
    + destruct i as [|i]; [apply (P2 [] 0); assumption|destruct i; discriminate].
    + apply (P2 ((0, k) :: r) i); assumption.
    + cbn in A. destruct j; discriminate.
  - intros way i b ms b' ms' A B. destruct way as [|[j k] r].
    + apply (P1 [] (S i)); assumption.
    + apply (P1 ((S j, k) :: r) i); assumption.
  - intros way i v w A B. destruct way as [|[j k] r].
    + apply (P2 [] (S i)); assumption.
    + apply (P2 ((S j, k) :: r) i); assumption.
Qed.
Lemma reg_cons l ls c cs st : reg [l] [c] st -> reg ls cs st -> reg (l :: ls) (c :: cs) st.
Proof.
  intros (A1 & A2) (B1 & B2). split.
  - intros way i b ms b' ms' X Y. destruct way as [|[[|j] k] r].
    + destruct i as [|i]; [apply (A1 [] 0 b ms b' ms'); assumption|apply (B1 [] i b ms b' ms'); assumption].
    + apply (A1 ((0, k) :: r) i b ms b' ms'); assumption.
    + apply (B1 ((j, k) :: r) i b ms b' ms'); assumption.
  - intros way i v w X Y. destruct way as [|[[|j] k] r].
    + destruct i as [|i]; [apply (A2 [] 0 v w); assumption|apply (B2 [] i v w); assumption].
    + apply (A2 ((0, k) :: r) i v w); assumption.
    + apply (B2 ((j, k) :: r) i v w); assumption.
Qed.
Lemma at_nil way i : at_pos [] way i = None.
Proof. destruct way as [|[[|j] k] r]; cbn; [now destruct i|reflexivity|reflexivity]. Qed.
Lemma list_works ls : Forall works ls -> forall cs st, Sound st -> pre ls cs -> Post st (pair_list ls cs st) /\ reg ls cs (pair_list ls cs st).
Proof.
  induction 1 as [|l ls W F IH]; intros cs st S P.
  - cbn. split; [now apply Post_refl|]. split; intros way i; intros; rewrite at_nil in *; discriminate.
  - destruct cs as [|c cs]; cbn [M_Canon.pair_list].
    + split; [now apply Post_refl|]. split; intros way i; intros; rewrite at_nil in *; discriminate.
    + apply pre_cons in P. destruct P as (P1 & P2). destruct (W c st S P1) as (Q1 & R1).
      destruct (IH cs (pair_mem l c st) (proj1 Q1) P2) as (Q2 & R2). split; [eapply Post_trans; eauto|].
      apply reg_cons; [eapply reg_ext; [apply Q2|exact R1]|exact R2].
Qed.
Lemma at_one m way i : at_pos [m] way i = match way with
  | [] => if i =? 0 then Some m else None
  | (0, k) :: r => match m with MScope k' ms => if pkind_eqb k k' then at_pos ms r i else None | _ => None end
  | _ => None
  end.
Proof. destruct way as [|[[|j] k] r]; cbn; [destruct i as [|i]; [reflexivity|now destruct i]|reflexivity|now destruct j]. Qed.
Ltac none_reg := split; intros way i; intros; repeat match goal with H : at_pos [_] way i = _ |- _ => rewrite at_one in H end;
  destruct way as [|[[|j] q] r]; try discriminate; destruct (i =? 0); discriminate.

Lemma all_work : forall l, works l.
Proof.
  apply mem_rect'; unfold works.
  - intros v c st S P. rewrite pair_mem_eq. destruct c as [w|b' ms'|k' ms'|k' ms']; try (split; [now apply Post_refl|none_reg]).
    split; [apply add_value; [exact S|]; apply (proj2 P [] 0); reflexivity|].
    split; intros way i; intros; rewrite at_one in *; destruct way as [|[[|j] q] r]; try discriminate; destruct (i =? 0); try discriminate.
    injection H as <-. apply emplace_some.
  - intros b ms F c st S P. rewrite pair_mem_eq. destruct c as [w|b' ms'|k' ms'|k' ms']; try (split; [now apply Post_refl|none_reg]).
    destruct (proj1 P [] 0 b ms b' ms' eq_refl eq_refl) as (C & M & M').
    assert (Et : match direct b' with Some d => (d, members d) | None => (b', ms') end = (target b', members (target b'))).
    { unfold S_Canon.target. destruct (direct b'); [reflexivity|now rewrite M']. }
    rewrite Et. cbn beta iota zeta. destruct (add_body st b (target b') S C) as (S1 & E1 & Qb & Inv). cbn beta zeta in *.
    set (st1 := Caches (vcache st) (emplace (bcache st) b (target b'))) in *.
    assert (Rg : forall st', ext st1 st' -> reg [MInst b ms] [MInst b' ms'] st').
    { intros st' E. split; intros way i; intros; rewrite at_one in *; destruct way as [|[[|j] q] r]; try discriminate; destruct (i =? 0); try discriminate.
      injection H as <- <-. rewrite (proj1 E _ _ Qb). discriminate. }
    destruct (Nat.eqb_spec b (target b')) as [Eb|Nb].
    + split; [|apply Rg, ext_refl]. split; [exact S1|]. split; [exact E1|]. intros x y Q Ne. destruct (Inv x y Q) as [Q1|(-> & ->)]; [auto|congruence].
    + destruct (list_works ms F (members (target b')) st1 S1) as (Po & Re); [rewrite <- M; now apply pre_body; auto|].
      split; [|apply Rg, Po]. destruct Po as (S2 & E2 & Cl). split; [exact S2|]. split; [eapply ext_trans; eauto|].
      intros x y Q Ne. destruct (Cl x y Q Ne) as [Q1|K]; [|auto]. destruct (Inv x y Q1) as [Q2|(-> & ->)]; [auto|]. right. split.
      * intros v w (way & i & A & B). rewrite M in A. exact (proj2 Re way i v w A B).
      * intros z z' (way & i & zs & zs' & A & B). rewrite M in A. exact (proj1 Re way i z zs z' zs' A B).
  - intros k ms F c st S P. rewrite pair_mem_eq. destruct c as [w|b' ms'|k' ms'|k' ms']; try (split; [now apply Post_refl|]);
      try (split; intros way i; intros; rewrite at_one in *; destruct way as [|[[|j] q] r]; try discriminate; destruct (i =? 0); discriminate).
    destruct (pkind_eqb k k') eqn:Ek.
    + apply pkind_eqb_eq in Ek. subst k'. assert (Kk : pkind_eqb k k = true) by (now apply pkind_eqb_eq).
      destruct (list_works ms F ms' st S) as (Po & Re).
      * split.
        -- intros way i b bs b' bs' A B. apply (proj1 P ((0, k) :: way) i); cbn; now rewrite Kk.
        -- intros way i v w A B. apply (proj2 P ((0, k) :: way) i); cbn; now rewrite Kk.
      * split; [exact Po|]. split; intros way i; intros; rewrite at_one in *; destruct way as [|[[|j] q] r]; try discriminate; try (destruct (i =? 0); discriminate);
          destruct (pkind_eqb q k); try discriminate; [eapply (proj1 Re)|eapply (proj2 Re)]; eauto.
    + split; [now apply Post_refl|]. split; intros way i; intros; rewrite at_one in *; destruct way as [|[[|j] q] r]; try discriminate; try (destruct (i =? 0); discriminate);
        destruct (pkind_eqb q k) eqn:E1, (pkind_eqb q k') eqn:E2; try discriminate; apply pkind_eqb_eq in E1, E2; subst; subst;
        rewrite (proj2 (pkind_eqb_eq _ _) eq_refl) in Ek; discriminate.
  - intros k ms c st S P. rewrite pair_mem_eq. destruct c as [w|b' ms'|k' ms'|k' ms']; (split; [now apply Post_refl|none_reg]).
Qed.
Lemma pair_bodies st b c : Sound st -> Canon b c -> c <> b ->
  Post st (pair_list (members b) (members c) st) /\ closed_at (pair_list (members b) (members c) st) b c.
Proof.
  intros S C Ne. destruct (list_works (members b)) with (cs := members c) (st := st) as (Po & Re); [|exact S|now apply pre_body|].
  - apply Forall_forall. intros l _. apply all_work.
  - split; [exact Po|]. split.
    + intros v w (way & i & A & B). exact (proj2 Re way i v w A B).
    + intros z z' (way & i & zs & zs' & A & B). exact (proj1 Re way i z zs z' zs' A B).
Qed.

(** * Queries *)
Definition Good (st : caches) : Prop := Sound st /\ Closed st.
Lemma good_empty : Good no_caches.
Proof. split; [split; discriminate|intros b c Q; discriminate]. Qed.

(** A body inside one that is its own canonical body. *)
Lemma find_anchor_none bc b : (forall x y, bc x = Some y -> Canon x y) -> find_anchor direct bc (chain b) = None -> Canon b b.
Proof.
  intros S. remember (chain b) as l eqn:El. revert b El. induction l as [|x l IH]; intros b El F; rewrite (ok_chain _ _ _ _ _ OK b) in El; [discriminate|].
  injection El as -> El. cbn in F. destruct (bc b) as [y|]; [discriminate|].
  assert (N : no_pointer b /\ find_anchor direct bc l = None).
  { unfold S_Canon.no_pointer. destruct (direct b) as [d|]; [|auto]. destruct (Nat.eqb_spec d b) as [Ed|]; [rewrite Ed in *|]; [auto|discriminate]. }
  destruct N as (N & F'). destruct (up b) as [p|] eqn:U.
  - eapply can_inside; eauto.
  - now apply can_top.
Qed.
Lemma find_anchor_some bc b a c : (forall x y, bc x = Some y -> Canon x y) -> find_anchor direct bc (chain b) = Some (a, c) -> Canon a c.
Proof.
  intros S. remember (chain b) as l eqn:El. revert b El. induction l as [|x l IH]; intros b El F; rewrite (ok_chain _ _ _ _ _ OK b) in El; [discriminate|].
  injection El as -> El. cbn in F. destruct (bc b) as [y|] eqn:Q; [injection F as <- <-; auto|].
  assert (K : find_anchor direct bc l = Some (a, c) -> Canon a c).
  { intros F'. destruct (up b) as [p|]; [eauto|]. subst l. discriminate. }
  destruct (direct b) as [d|] eqn:D; [|auto]. destruct (Nat.eqb_spec d b) as [->|Ne]; [auto|]. injection F as <- <-. now constructor.
Qed.
(** Below the anchor a body is registered or is its own canonical body. *)
Lemma below bc st b a c : (forall x y, bc x = Some y -> Canon x y) -> Good st -> find_anchor direct bc (chain b) = Some (a, c) -> Canon a c ->
  bcache st a = Some c -> bcache st b = None -> Canon b b.
Proof.
  intros S (Sd & Cl). remember (chain b) as l eqn:El. revert b El. induction l as [|x l IH]; intros b El F Ca Qa Qb; rewrite (ok_chain _ _ _ _ _ OK b) in El; [discriminate|].
  injection El as -> El. cbn in F. destruct (bc b) as [y|] eqn:Q; [injection F as <- <-; congruence|].
  assert (N : no_pointer b /\ find_anchor direct bc l = Some (a, c)).
  { unfold S_Canon.no_pointer. destruct (direct b) as [d|]; [|auto]. destruct (Nat.eqb_spec d b) as [Ed|]; [rewrite Ed in *|]; [auto|]. injection F as <- <-. congruence. }
  destruct N as (N & F'). destruct (up b) as [p|] eqn:U; [|subst l; discriminate].
  destruct (bcache st p) as [q|] eqn:Qp.
  - pose proof (proj1 Sd _ _ Qp) as Cp. destruct (Nat.eq_dec q p) as [->|Ne]; [eapply can_inside; eauto|].
    eapply can_alone; eauto. intros b' P. destruct (Cl p q Qp Ne) as (_ & K). exact (K _ _ P Qb).
  - eapply can_inside; eauto.
Qed.
Lemma Post_add st b : Good st -> Canon b b -> Good (Caches (vcache st) (emplace (bcache st) b b)).
Proof.
  intros (S & Cl) C. destruct (add_body st b b S C) as (S1 & E & Q & Inv). split; [exact S1|].
  intros x y Qx Ne. destruct (Inv x y Qx) as [Q1|(-> & ->)]; [|congruence]. eapply closed_ext; [exact E|]. now apply Cl.
Qed.

Lemma body_query st b : Good st -> let r := getCanonicalBody members direct chain st b in
  Good (fst r) /\ Canon b (snd r) /\ ext st (fst r) /\ bcache (fst r) b = Some (snd r).
Proof.
  intros G. pose proof G as (S & Cl). unfold getCanonicalBody. destruct (bcache st b) as [c|] eqn:Q; cbn.
  { split; [exact G|]. split; [now apply S|]. split; [apply ext_refl|exact Q]. }
  assert (Self : forall st', Good st' -> ext st st' -> bcache st' b = None -> Canon b b ->
    let r := (Caches (vcache st') (emplace (bcache st') b b), b) in Good (fst r) /\ Canon b (snd r) /\ ext st (fst r) /\ bcache (fst r) b = Some (snd r)).
  { intros st' G' E' Q' C. cbn. split; [now apply Post_add|]. split; [exact C|].
    destruct (add_body st' b b (proj1 G') C) as (_ & E2 & Qb & _). split; [eapply ext_trans; eauto|exact Qb]. }
  destruct (find_anchor direct (bcache st) (chain b)) as [[a c]|] eqn:F.
  - pose proof (find_anchor_some _ _ _ _ (proj1 S) F) as Ca. destruct (Nat.eqb_spec c a) as [->|Ne].
    + apply Self; auto; [apply ext_refl|].
      (* the anchor is its own canonical body *)
      clear - OK S F Ca Q. remember (chain b) as l eqn:El. revert b El Q F. induction l as [|x l IH]; intros b El Q F; rewrite (ok_chain _ _ _ _ _ OK b) in El; [discriminate|].
      injection El as -> El. cbn in F. rewrite Q in F.
      assert (N : no_pointer b /\ find_anchor direct (bcache st) l = Some (a, a)).
      { unfold S_Canon.no_pointer. destruct (direct b) as [d|]; [|auto]. destruct (Nat.eqb_spec d b) as [Ed|]; [rewrite Ed in *|]; [auto|]. injection F as <- <-. congruence. }
      destruct N as (N & F'). destruct (up b) as [p|] eqn:U; [|subst l; discriminate].
      destruct (bcache st p) as [q|] eqn:Qp.
      * assert (q = a /\ p = a) by (subst l; rewrite (ok_chain _ _ _ _ _ OK p) in F'; cbn in F'; rewrite Qp in F'; injection F'; auto). destruct H as (-> & ->).
        eapply can_inside; eauto.
      * eapply can_inside; eauto.
    + destruct (add_body st a c S Ca) as (S1 & E1 & Qa & Inv). cbn zeta in *. set (st1 := Caches (vcache st) (emplace (bcache st) a c)) in *.
      destruct (pair_bodies st1 a c S1 Ca Ne) as (Po & Ka). set (st2 := pair_list (members a) (members c) st1) in *.
      assert (G2 : Good st2).
      { split; [apply Po|]. intros x y Qx Nx. destruct (proj2 (proj2 Po) x y Qx Nx) as [Q1|K]; [|exact K].
        destruct (Inv x y Q1) as [Q2|(-> & ->)]; [eapply closed_ext; [|now apply Cl]; eapply ext_trans; [exact E1|apply Po]|exact Ka]. }
      assert (E2 : ext st st2) by (eapply ext_trans; [exact E1|apply Po]).
      destruct (bcache st2 b) as [x|] eqn:Q2.
      * cbn. split; [exact G2|]. split; [now apply G2|]. auto.
      * apply Self; auto. eapply (below (bcache st) st2 b a c); eauto; [apply S|]. apply (proj1 (proj1 (proj2 Po))). exact Qa.
  - apply Self; auto; [apply ext_refl|]. eapply find_anchor_none; eauto. apply S.
Qed.
Lemma value_query st v : Good st -> let r := getCanonicalValue members direct chain home st v in Good (fst r) /\ CanonV v (snd r).
Proof.
  intros G. pose proof G as (S & Cl). unfold getCanonicalValue. destruct (vcache st v) as [w|] eqn:Q; cbn; [split; [exact G|now apply S]|].
  assert (Self : forall st', Good st' -> CanonV v v -> Good (Caches (emplace (vcache st') v v) (bcache st')) /\ CanonV v v).
  { intros st' G' C. split; [|exact C]. pose proof (add_value st' v v (proj1 G') C) as Po. split; [apply Po|]. eapply Post_closed; [exact Po|apply G']. }
  destruct (home v) as [b|] eqn:Hv.
  - destruct (body_query st b G) as (G1 & C1 & E1 & Q1). set (st1 := fst (getCanonicalBody members direct chain st b)) in *.
    set (c := snd (getCanonicalBody members direct chain st b)) in *.
    destruct (vcache st1 v) as [w|] eqn:Qv; cbn; [split; [exact G1|now apply G1]|]. apply Self; [exact G1|].
    destruct (Nat.eq_dec c b) as [Ec|Ne]; [rewrite Ec in C1; eapply cv_inside; eauto|].
    eapply cv_alone; eauto. intros w P. exact (proj1 (proj2 G1 b c Q1 Ne) v w P Qv).
  - cbn. apply Self; [exact G|]. now apply cv_top.
Qed.
Lemma after_good : forall qs st, Good st -> Good (after members direct chain home st qs).
Proof.
  induction qs as [|q qs IH]; intros st G; [exact G|]. cbn. apply IH. destruct q as [b|v]; cbn; [apply body_query|apply value_query]; exact G.
Qed.
End C.
