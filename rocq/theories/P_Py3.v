(** Proofs about the rows, path_exists and paths. *)
From Coq Require Import Ascii String Sorted Permutation.
From Verif Require Import Base M_Graph S_Graph S_Reach M_Range M_Netlist S_Netlist M_Text M_Serial M_Path M_Query M_Report M_Py
  S_Query S_Cli S_Py P_Path P_Query P_Cli P_Py P_Py2 M_Cli.
Notation length := List.length.

(** * Rows of the clock domains *)
Lemma domain_leb_iff a b : a <> b -> (domain_leb a b = true <-> DomainLt a b).
Proof.
  intros Ne. unfold domain_leb, DomainLt.
  assert (Q : forall x y, str_eqb x y = true <-> x = y) by apply str_eqb_eq.
  assert (T : forall x y, TextLt x y <-> str_leb x y = true /\ x <> y) by apply text_lt_iff.
  assert (R : (if str_eqb (fst a) (fst b) then str_leb (snd a) (snd b) else str_leb (fst a) (fst b)) = true <->
              TextLt (fst a) (fst b) \/ (fst a = fst b /\ TextLt (snd a) (snd b))).
  { rewrite !T. destruct (str_eqb (fst a) (fst b)) eqn:E.
    - apply Q in E. split; [|tauto]. intros L. right. split; [exact E|]. split; [exact L|]. intros E'. apply Ne. destruct a, b; cbn in *; congruence.
    - assert (fst a <> fst b) by (intros E'; apply Q in E'; congruence). tauto. }
  destruct (str_eqb (fst a) (lit "<unclocked>")) eqn:A, (str_eqb (fst b) (lit "<unclocked>")) eqn:B;
    try (apply Q in A); try (apply Q in B).
  - rewrite R. split; [intros H; right; split; [tauto|exact H]|tauto].
  - assert (fst b <> lit "<unclocked>") by (intros E'; apply Q in E'; congruence). split; [discriminate|]. tauto.
  - assert (fst a <> lit "<unclocked>") by (intros E'; apply Q in E'; congruence). split; [tauto|reflexivity].
  - assert (fst a <> lit "<unclocked>") by (intros E'; apply Q in E'; congruence).
    assert (fst b <> lit "<unclocked>") by (intros E'; apply Q in E'; congruence).
    rewrite R. split; [intros H'; right; split; [tauto|exact H']|tauto].
Qed.
Lemma str_eqb_sym a b : str_eqb a b = str_eqb b a.
Proof.
  destruct (str_eqb a b) eqn:E, (str_eqb b a) eqn:F; try reflexivity.
  - apply str_eqb_eq in E. symmetry in E. apply str_eqb_eq in E. congruence.
  - apply str_eqb_eq in F. symmetry in F. apply str_eqb_eq in F. congruence.
Qed.
Lemma domain_leb_total a b : domain_leb a b = true \/ domain_leb b a = true.
Proof.
  unfold domain_leb. rewrite (str_eqb_sym (fst b) (fst a)).
  destruct (str_eqb (fst a) (lit "<unclocked>")), (str_eqb (fst b) (lit "<unclocked>")); auto;
  destruct (str_eqb (fst a) (fst b)); apply str_leb_total.
Qed.
Lemma domain_leb_trans a b c : domain_leb a b = true -> domain_leb b c = true -> domain_leb a c = true.
Proof.
  assert (Core : (if str_eqb (fst a) (fst b) then str_leb (snd a) (snd b) else str_leb (fst a) (fst b)) = true ->
                 (if str_eqb (fst b) (fst c) then str_leb (snd b) (snd c) else str_leb (fst b) (fst c)) = true ->
                 (if str_eqb (fst a) (fst c) then str_leb (snd a) (snd c) else str_leb (fst a) (fst c)) = true).
  { destruct (str_eqb (fst a) (fst b)) eqn:E1, (str_eqb (fst b) (fst c)) eqn:E2, (str_eqb (fst a) (fst c)) eqn:E3;
      repeat match goal with H : str_eqb _ _ = true |- _ => apply str_eqb_eq in H end; intros H1 H2.
    - eapply str_leb_trans; eauto.
    - rewrite E1, E2 in E3. assert (str_eqb (fst c) (fst c) = true) by now apply str_eqb_eq. congruence.
    - assert (X : fst b = fst c) by congruence. apply str_eqb_eq in X. congruence.
    - now rewrite E1.
    - assert (X : fst a = fst b) by congruence. apply str_eqb_eq in X. congruence.
    - now rewrite <- E2.
    - rewrite E3 in H1. assert (X : fst b = fst c) by now apply str_leb_antisym. apply str_eqb_eq in X. congruence.
    - eapply str_leb_trans; eauto. }
  unfold domain_leb. destruct (str_eqb (fst a) (lit "<unclocked>")), (str_eqb (fst b) (lit "<unclocked>")), (str_eqb (fst c) (lit "<unclocked>")); auto; discriminate.
Qed.
Lemma rows_spec d : NoDup (map fst d) ->
  StronglySorted DomainLt (map (fun r => fst (fst r)) (domain_rows d)) /\
  (forall c e, In (c, e) (map (fun r => fst (fst r)) (domain_rows d)) <-> In (c, e) (map fst d)) /\
  (forall c e k l, In (c, e, k, l) (domain_rows d) -> StronglySorted TextLt l /\ k = length l /\
     exists l', In (c, e, l') d /\ forall p, In p l <-> In p l').
Proof.
  intros N. unfold domain_rows. assert (P := sorted_perm (fun x y : domain * list str => domain_leb (fst x) (fst y)) d).
  assert (M : map (fun r => fst (fst r)) (map (fun x : domain * list str => (fst (fst x), snd (fst x), length (set_of (snd x)), sorted_by str_leb (set_of (snd x))))
      (sorted_by (fun x y => domain_leb (fst x) (fst y)) d)) = map fst (sorted_by (fun x y => domain_leb (fst x) (fst y)) d)).
  { rewrite map_map. apply map_ext. intros [[c e] l]. reflexivity. }
  split; [|split].
  - refine (eq_ind_r (fun l => StronglySorted DomainLt l) _ M). eapply (strict_sorted (fun a b => domain_leb a b = true)).
    + apply sorted_map, (sorted_sorted (fun x y : domain * list str => domain_leb (fst x) (fst y))).
      * intros x y. apply domain_leb_total.
      * intros x y z. apply domain_leb_trans.
    + eapply Permutation_NoDup; [apply Permutation_map, P|exact N].
    + intros a b L Ne. now apply domain_leb_iff.
  - intros c e. refine (eq_ind_r (fun l => In (c, e) l <-> In (c, e) (map fst d)) _ M). split; apply Permutation_in; [symmetry|]; now apply Permutation_map.
  - intros c e k l I. apply in_map_iff in I. destruct I as ([[c' e'] l'] & [= <- <- <- <-] & I). apply sorted_in in I. cbn [fst snd].
    split; [apply text_sorted, union_nodup; constructor|]. split.
    + unfold set_of. apply Permutation_length, sorted_perm.
    + exists l'. split; [exact I|]. intros p. rewrite (sorted_in str_leb). unfold set_of. rewrite union_in. cbn. tauto.
Qed.

Lemma joined l sep : l <> [] -> Joined sep l (join sep l).
Proof. induction l as [|x l IH]; [congruence|]. intros _. destruct l; [constructor|]. cbn [join]. apply jo_more, IH. discriminate. Qed.

Section Py3.
Variable cval : Type.
Variable g : nlg cval.
Hypothesis W : WF (nl_of cval g).
Notation nl := (nl_of cval g).
(** * Driver rows *)
Lemma driver_row_spec s lo hi : exists l t, driver_row cval g s lo hi = (l, t) /\ BitLabel s lo hi l /\
  ((t = lit "(no drivers)" /\ forall d b, InRange b (Range lo hi) -> ~ DrivesBit nl s d b) \/
   exists ts, Joined (lit ", ") ts t /\ StronglySorted TextLt ts /\
     forall x, In x ts <-> exists d b, InRange b (Range lo hi) /\ DrivesBit nl s d b /\ Tag cval g d x).
Proof.
  unfold driver_row. eexists _, _. split; [reflexivity|]. split.
  - unfold row_label. destruct (Z.eqb_spec hi lo) as [->|Ne]; constructor. congruence.
  - destruct (getDrivers_spec nl s (Range lo hi) W) as [_ H]. destruct (M_Query.getDrivers nl s (Range lo hi)) as [|d ds].
    + left. split; [reflexivity|]. intros d b I D. destruct (proj2 (H d)); eauto.
    + right. set (L := d :: ds) in *. exists (sorted_by str_leb (set_of (map (describe cval g) L))).
      assert (In_ : forall x, In x (sorted_by str_leb (set_of (map (describe cval g) L))) <-> In x (map (describe cval g) L)).
      { intros x. rewrite (sorted_in str_leb). unfold set_of. rewrite union_in. cbn. tauto. }
      split; [|split].
      * apply joined. intros E. specialize (In_ (describe cval g d)). rewrite E in In_. apply In_. now left.
      * apply text_sorted, union_nodup. constructor.
      * intros x. rewrite In_, in_map_iff. split.
        -- intros (m & <- & I). apply H in I. destruct I as (b & Ib & D). exists m, b. split; [exact Ib|]. split; [exact D|now apply tag_text].
        -- intros (m & b & Ib & D & T). apply tag_text in T. exists m. split; [now symmetry|]. apply H. eauto.
Qed.
(** * path_exists *)
Lemma path_exists_spec a b :
  (path_exists cval g a b = PyValueError _ (lit "Node not found: " ++ a) /\ forall n, ~ Named cval g n a) \/
  (path_exists cval g a b = PyValueError _ (lit "Node not found: " ++ b) /\ (exists n, Named cval g n a) /\ forall n, ~ Named cval g n b) \/
  exists s e r, First cval g a s /\ First cval g b e /\ path_exists cval g a b = PyOk _ r /\ (r = true <-> s <> e /\ Reach1 (Conn nl) s e).
Proof.
  unfold path_exists.
  assert (Lk : forall x, match lookup_idx (mk_index nl) x with Some n => First cval g x n | None => forall n, ~ Named cval g n x end).
  { intros x. assert (R := require_spec cval g (lit "") x). unfold require, the_index in R.
    destruct (lookup_idx (mk_index nl) x) as [n|].
    - destruct R as [(m & [= ->] & F)|[E _]]; [exact F|discriminate].
    - destruct R as [(n & E & _)|[_ R]]; [discriminate|exact R]. }
  assert (La := Lk a). assert (Lb := Lk b). destruct (lookup_idx (mk_index nl) a) as [s|]; [|left; auto].
  destruct (lookup_idx (mk_index nl) b) as [e|]; [|right; left; split; [reflexivity|split; [|exact Lb]]].
  2:{ destruct La as (l1 & l2 & _ & N & _). eauto. }
  right. right. assert (Is := first_in cval g _ _ La). assert (Ie := first_in cval g _ _ Lb).
  destruct (Nat.eq_dec s e) as [->|Ne].
  - assert (Es : pf_find nl e e = PPath []) by exact (path_with_self nl (pred_enabled nl) e W Ie). rewrite Es. exists e, e, false. repeat split; auto; try discriminate. intros [H _]; congruence.
  - destruct (c12 nl s e W Is Ie Ne) as (p & -> & H). eexists s, e, _. split; [exact La|]. split; [exact Lb|]. split; [reflexivity|].
    destruct p; cbn; split; try discriminate.
    + intros [_ R]. apply H in R. congruence.
    + intros _. split; [exact Ne|]. apply H. discriminate.
    + reflexivity.
Qed.
End Py3.

(** * NetlistPath *)
Lemma getitem_spec p i : (forall n, np_getitem p i = ANode n <-> nth_error p i = Some n) /\ (np_getitem p i = AUndef <-> np_len p <= i).
Proof.
  unfold np_getitem, of_opt, np_len. split.
  - intros n. destruct (nth_error p i); split; congruence.
  - rewrite <- nth_error_None. destruct (nth_error p i); split; congruence.
Qed.
Lemma ends_spec p : (np_front p = AUndef <-> p = []) /\ (np_back p = AUndef <-> p = []) /\
  (forall n, np_front p = ANode n <-> exists r, p = n :: r) /\ (forall n, np_back p = ANode n <-> exists r, p = r ++ [n]).
Proof.
  destruct p as [|x p]; cbn.
  - repeat split; try congruence; intros (r & E); destruct r; discriminate.
  - repeat split; try congruence.
    + intros [= ->]. eauto.
    + intros (r & [= -> ->]). reflexivity.
    + intros [= <-]. destruct (@exists_last _ (x :: p)) as (r & y & E); [discriminate|]. rewrite E. exists r. f_equal. f_equal.
      assert (L : last (x :: p) x = y) by (rewrite E; apply last_last). rewrite <- L. destruct p as [|z p]; [reflexivity|]. cbn [last]. now symmetry.
    + intros (r & E). f_equal. assert (L : last (x :: p) x = n) by (rewrite E; apply last_last). rewrite <- L. destruct p; reflexivity.
Qed.
