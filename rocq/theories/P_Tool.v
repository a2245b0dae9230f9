From Coq Require Import Ascii String.
From Verif Require Import Base M_Range M_Netlist S_Text M_Text P_Text M_Serial M_Cli P_Cli M_Tool S_Tool.
Notation length := List.length.

(** ** C91 *)
Definition dots : str := lit "...".
Lemma find_dots_iff s : find_dots s = true <-> exists a b, s = a ++ dots ++ b.
Proof.
  induction s as [|c s IH].
  - cbn. split; [discriminate|]. intros ([|? ?] & b & E); discriminate.
  - split.
    + intros H. destruct s as [|d [|e s]]; try discriminate. cbn [find_dots] in H. apply orb_true_iff in H as [H|H].
      * rewrite !andb_true_iff, !aeq_eq in H. destruct H as [[-> ->] ->]. exists [], s. reflexivity.
      * apply IH in H. destruct H as (a & b & E). exists (c :: a), b. cbn. now rewrite E.
    + intros (a & b & E). destruct a as [|x a].
      * injection E as -> ->. reflexivity.
      * injection E as -> E. assert (H : find_dots s = true) by (apply IH; exists a, b; exact E).
        destruct s as [|d [|e s]]; try discriminate. cbn [find_dots] in *. rewrite H. apply orb_true_r.
Qed.
Lemma glob_iff s : hasGlobChar s = true <-> In "*"%char s \/ In "?"%char s \/ exists a b, s = a ++ dots ++ b.
Proof.
  unfold hasGlobChar. rewrite orb_true_iff, existsb_exists, find_dots_iff. split.
  - intros [(c & I & H)|H]; auto. apply orb_true_iff in H. rewrite !aeq_eq in H. destruct H as [->| ->]; auto.
  - intros [H|[H|H]]; auto; left; eexists; (split; [exact H|reflexivity]).
Qed.
Lemma glob_cons c s : hasGlobChar (c :: s) = false -> hasGlobChar s = false.
Proof.
  intros H. destruct (hasGlobChar s) eqn:E; auto. rewrite <- H. symmetry. apply glob_iff. apply glob_iff in E.
  destruct E as [E|[E|(a & b & ->)]]; [left; now right|right; left; now right|]. right. right. exists (c :: a), b. reflexivity.
Qed.
Lemma glob_starts s : StartsRec s -> hasGlobChar s = true.
Proof.
  intros (r & v & [->| ->] & ->); apply glob_iff; [left; left; reflexivity|]. right. right. exists [], v. reflexivity.
Qed.
Lemma glob_lits s : hasGlobChar s = false -> Lex s (map TLit s).
Proof.
  induction s as [|c s IH]; intros H; [constructor|].
  assert (N : forall x, hasGlobChar (c :: s) = true -> x) by (intros x K; congruence).
  apply lex_lit.
  - intros ->. apply N, glob_iff. left. now left.
  - intros ->. apply N, glob_iff. right. left. now left.
  - intros K. now apply N, glob_starts.
  - intros (v & E & K). injection E as -> ->. apply glob_starts in K. apply glob_cons in H. congruence.
  - apply IH. eapply glob_cons; eauto.
Qed.
Lemma lits_glob s ts : Lex s ts -> (forall t, In t ts -> exists c, t = TLit c) -> hasGlobChar s = false.
Proof.
  induction 1 as [|lead r trail p ts R A B L IH|p ts N L IH|p ts L IH|c p ts N1 N2 N3 N4 L IH]; intros H.
  - reflexivity.
  - destruct (H (TRec lead trail)) as (c & E); [now left|discriminate].
  - destruct (H TStar) as (x & E); [now left|discriminate].
  - destruct (H TAny) as (x & E); [now left|discriminate].
  - destruct (hasGlobChar (c :: p)) eqn:E; auto. apply glob_iff in E.
    assert (K : hasGlobChar p = false) by (apply IH; intros t I; apply H; now right).
    destruct E as [[E|E]|[[E|E]|(a & b & E)]]; try congruence.
    + rewrite <- K. symmetry. apply glob_iff. auto.
    + rewrite <- K. symmetry. apply glob_iff. auto.
    + destruct a as [|x a].
      * exfalso. apply N3. exists dots, b. split; [now right|exact E].
      * injection E as -> ->. rewrite <- K. symmetry. apply glob_iff. right. right. exists a, b. reflexivity.
Qed.
Lemma c91 s : hasGlobChar s = true <-> Wild s.
Proof.
  split.
  - intros H. destruct (lex_total s) as (ts & L). exists ts.
    assert (X : (forall t, In t ts -> exists c, t = TLit c) \/ exists t, In t ts /\ forall c, t <> TLit c).
    { clear. induction ts as [|t ts [IH|(x & I & IH)]].
      - left. intros t [].
      - destruct t as [c| | |l r].
        + left. intros t [<-|I]; eauto.
        + right. exists TAny. split; [now left|discriminate].
        + right. exists TStar. split; [now left|discriminate].
        + right. exists (TRec l r). split; [now left|discriminate].
      - right. exists x. split; auto. now right. }
    destruct X as [X|(t & I & X)]; [|eauto]. apply (lits_glob s ts L) in X. congruence.
  - intros (ts & t & L & I & N). destruct (hasGlobChar s) eqn:E; auto. apply glob_lits in E.
    rewrite (lex_unique (length s) s ts (map TLit s)) in I; auto. apply in_map_iff in I. destruct I as (c & <- & _).
    destruct (N c); reflexivity.
Qed.
Lemma c91_literal s p : hasGlobChar s = false -> (matches p s = true <-> p = s).
Proof.
  intros H. apply glob_lits in H. rewrite matches_iff. split.
  - intros (ts & L & Mt). rewrite (lex_unique (length s) s ts (map TLit s)) in Mt; auto.
    rewrite <- (app_nil_r (map TLit s)) in Mt. apply matches_lits in Mt. destruct Mt as (r & -> & ->). apply app_nil_r.
  - intros ->. exists (map TLit s). split; auto. rewrite <- (app_nil_r (map TLit s)). apply matches_lits. exists []. split; [now rewrite app_nil_r|reflexivity].
Qed.

(** ** Trees *)
Section Tree.
Variable P : symbol -> Prop.
Hypothesis H : forall s, (forall m, In m (s_members s) -> P m) -> P s.
Fixpoint symbol_rect' (s : symbol) : P s :=
  H s (match s as s0 return (forall m, In m (s_members s0) -> P m) with
       | Symbol i p l c k ms =>
           (fix go (l0 : list symbol) : forall m, In m l0 -> P m :=
              match l0 as l1 return (forall m, In m l1 -> P m) with
              | [] => fun m I => match I with end
              | x :: r => fun m I => match I with
                                     | or_introl E => eq_ind x P (symbol_rect' x) m E
                                     | or_intror I' => go r m I'
                                     end
              end) ms
       end).
End Tree.

Section PreLemmas.
Variable Open : symbol -> Prop.
Variable o : symbol -> bool.
Hypothesis Oo : forall s, o s = true <-> Open s.
Definition pre_list (f : symbol -> list symbol) (s : symbol) : list symbol := s :: if o s then flat_map f (s_members s) else [].
Fixpoint pre (s : symbol) : list symbol :=
  match s with Symbol _ _ _ _ _ ms => s :: if o s then flat_map pre ms else [] end.
Lemma pre_eq s : pre s = s :: if o s then flat_map pre (s_members s) else [].
Proof. destruct s; reflexivity. Qed.
Lemma pres_pre l : (forall s, In s l -> Pre Open s (pre s)) -> Pres Open l (flat_map pre l).
Proof. induction l as [|s l IH]; intros K; cbn [flat_map]; constructor; [apply K; now left|apply IH; intros; apply K; now right]. Qed.
Lemma pre_ok s : Pre Open s (pre s).
Proof.
  induction s as [s IH] using symbol_rect'. rewrite pre_eq. destruct (o s) eqn:E.
  - apply Pre_open; [now apply Oo|]. now apply pres_pre.
  - apply Pre_closed. rewrite <- Oo. congruence.
Qed.
Lemma pres_ok l : Pres Open l (flat_map pre l).
Proof. apply pres_pre. intros. apply pre_ok. Qed.
Lemma pres_det l : (forall s, In s l -> forall x, Pre Open s x -> x = pre s) -> forall x, Pres Open l x -> x = flat_map pre l.
Proof.
  induction l as [|s l IH]; intros K x Hx; inversion Hx; subst; [reflexivity|]. cbn [flat_map]. f_equal.
  - apply K; auto. now left.
  - apply IH; auto. intros; apply K; auto. now right.
Qed.
Lemma pre_det s : forall x, Pre Open s x -> x = pre s.
Proof.
  induction s as [s IH] using symbol_rect'. intros x Hx. rewrite pre_eq. inversion Hx; subst.
  - destruct (o s) eqn:E; auto. apply Oo in E. contradiction.
  - apply Oo in H. rewrite H. f_equal. eapply pres_det; eauto.
Qed.
Lemma pres_det' l x : Pres Open l x -> x = flat_map pre l.
Proof. apply pres_det. intros. now apply pre_det. Qed.
End PreLemmas.

Lemma kept_filter {A} (P : A -> Prop) f (l : list A) : (forall a, f a = true <-> P a) -> Kept P l (filter f l).
Proof.
  intros K. induction l as [|a l IH]; cbn [filter]; [constructor|]. destruct (f a) eqn:E.
  - apply Kept_in; auto. now apply K.
  - apply Kept_out; auto. rewrite <- K. congruence.
Qed.
Lemma kept_det {A} (P : A -> Prop) f (l r : list A) : (forall a, f a = true <-> P a) -> Kept P l r -> r = filter f l.
Proof.
  intros K H. induction H as [|a l r Ha H IH|a l r Ha H IH]; cbn [filter]; auto.
  - apply K in Ha. rewrite Ha. now f_equal.
  - destruct (f a) eqn:E; auto. apply K in E. contradiction.
Qed.

(** ** C92: selection *)
Fixpoint dedup (seen : list nat) (l : list symbol) : list symbol :=
  match l with
  | [] => []
  | s :: r => if existsb (Nat.eqb (s_id s)) seen then dedup seen r else s :: dedup (s_id s :: seen) r
  end.
Lemma mem_iff n l : existsb (Nat.eqb n) l = true <-> In n l.
Proof.
  rewrite existsb_exists. split; [intros (x & I & E); apply Nat.eqb_eq in E; now subst|].
  intros I. exists n. split; auto. apply Nat.eqb_refl.
Qed.
Lemma firsts_dedup l : forall seen, Firsts seen l (dedup seen l).
Proof.
  induction l as [|s l IH]; intros seen; cbn [dedup]; [constructor|]. destruct (existsb _ _) eqn:E.
  - apply Firsts_old; auto. now apply mem_iff.
  - apply Firsts_new; auto. rewrite <- mem_iff. congruence.
Qed.
Lemma pick_all l : forall st, fold_left (fun s x => pick x s) l st =
  (rev (map s_id (dedup (fst st) l)) ++ fst st, snd st ++ dedup (fst st) l).
Proof.
  induction l as [|s l IH]; intros [seen out]; cbn [fold_left dedup fst snd]; [now rewrite app_nil_r|].
  unfold pick at 2. cbn [fst snd]. rewrite IH. destruct (existsb _ _); cbn [fst snd]; [reflexivity|].
  cbn [map rev]. now rewrite <- !app_assoc.
Qed.
Definition elab (s : symbol) : bool := match s_kind s with SScope | SInst false => true | _ => false end.
Lemma elab_iff s : elab s = true <-> Elaborated s.
Proof. unfold elab, Elaborated. destruct (s_kind s) as [[]| |]; intuition congruence. Qed.
Definition path_ok (pat : str) (s : symbol) : bool := match s_path s with [] => false | _ => matches (s_path s) pat end.
Lemma path_ok_iff pat s : path_ok pat s = true <-> PathMatches pat s.
Proof.
  unfold path_ok, PathMatches. destruct (s_path s) eqn:E; [split; [discriminate|intros [H _]; congruence]|].
  rewrite matches_iff. split; [intros K; split; [discriminate|exact K]|tauto].
Qed.
Lemma fold_flat {A B C} (g : C -> B -> C) (f : A -> list B) l : forall c,
  fold_left (fun c a => fold_left g (f a) c) l c = fold_left g (flat_map f l) c.
Proof. induction l as [|a l IH]; intros c; cbn; [reflexivity|]. now rewrite IH, fold_left_app. Qed.
Lemma fold_ext_in {A C} (f g : C -> A -> C) l : (forall a, In a l -> forall c, f c a = g c a) -> forall c, fold_left f l c = fold_left g l c.
Proof.
  induction l as [|a l IH]; intros K c; cbn; [reflexivity|]. rewrite K by now left. apply IH. intros; apply K. now right.
Qed.
Lemma collect_eq pat m : forall st, collect pat m st = fold_left (fun s x => pick x s) (filter (path_ok pat) (pre elab m)) st.
Proof.
  induction m as [m IH] using symbol_rect'. intros st. rewrite pre_eq. cbn [filter].
  assert (K : forall st1, (match s_kind m with
                           | SInst true | SLeaf => st1
                           | SInst false | SScope => fold_left (fun s x => collect pat x s) (s_members m) st1
                           end) = fold_left (fun s x => pick x s) (filter (path_ok pat) (if elab m then flat_map (pre elab) (s_members m) else [])) st1).
  { intros st1. rewrite (fold_ext_in _ (fun s x => fold_left (fun s x => pick x s) (filter (path_ok pat) (pre elab x)) s) (s_members m)).
    2:{ intros a I c. now apply IH. }
    assert (L : filter (path_ok pat) (flat_map (pre elab) (s_members m)) = flat_map (fun x => filter (path_ok pat) (pre elab x)) (s_members m)).
    { clear. induction (s_members m) as [|a l IH]; cbn; auto. now rewrite filter_app', IH. }
    assert (Ee : elab m = match s_kind m with SScope | SInst false => true | _ => false end) by reflexivity.
    rewrite fold_flat, Ee. destruct (s_kind m) as [[]| |]; cbn [filter fold_left]; try reflexivity; now rewrite L. }
  destruct m as [i p l c k ms] eqn:Em. cbn [collect]. cbn [s_kind s_members] in K.
  rewrite K. assert (Ep : path_ok pat (Symbol i p l c k ms) = match p with [] => false | _ => matches p pat end) by reflexivity.
  rewrite Ep. destruct p as [|a p]; [reflexivity|]. destruct (matches (a :: p) pat); reflexivity.
Qed.
Lemma flat_map_filter {A B} (f : B -> bool) (g : A -> list B) l : filter f (flat_map g l) = flat_map (fun x => filter f (g x)) l.
Proof. induction l as [|a l IH]; cbn; auto. now rewrite filter_app', IH. Qed.
Definition found (root : symbol) (pat : str) : list symbol := filter (path_ok pat) (flat_map (pre elab) (s_members root)).
Lemma glob_eq root pat st : collectGlobMatches root pat st = fold_left (fun s x => pick x s) (found root pat) st.
Proof.
  unfold collectGlobMatches, found. rewrite flat_map_filter, <- fold_flat. apply fold_ext_in. intros. apply collect_eq.
Qed.

Section Select.
Variable root : symbol.
Variable lookupName : str -> option symbol.
Definition answer (x : str) : list symbol :=
  if hasGlobChar x then found root x else match lookupName x with Some s => [s] | None => [] end.
Lemma answers_found x l : hasGlobChar x = true -> (Answers root lookupName x l <-> l = found root x).
Proof.
  intros G. split.
  - intros [all l0 W Pr K|s W L].
    + apply (pres_det' _ _ elab_iff) in Pr. subst all. now apply (kept_det _ _ _ _ (path_ok_iff x)) in K.
    + apply c91 in G. contradiction.
  - intros ->. eapply An_glob; [now apply c91|apply pres_ok, elab_iff|]. apply kept_filter, path_ok_iff.
Qed.
Lemma answers_name x l : hasGlobChar x = false -> (Answers root lookupName x l <-> exists s, lookupName x = Some s /\ l = [s]).
Proof.
  intros G. assert (N : ~ Wild x) by (rewrite <- c91; congruence). split.
  - intros [all l0 W Pr K|s W L]; [contradiction|eauto].
  - intros (s & L & ->). now apply An_name.
Qed.
Lemma answers_fun x l l' : Answers root lookupName x l -> Answers root lookupName x l' -> l = l'.
Proof.
  destruct (hasGlobChar x) eqn:G; intros A B.
  - apply (answers_found x l G) in A. apply (answers_found x l' G) in B. congruence.
  - apply (answers_name x l G) in A. apply (answers_name x l' G) in B. destruct A as (s & A & ->), B as (s' & B & ->). congruence.
Qed.
Lemma dedup_app a b : forall seen, dedup seen (a ++ b) = dedup seen a ++ dedup (rev (map s_id (dedup seen a)) ++ seen) b.
Proof.
  induction a as [|s a IH]; intros seen; cbn [app dedup]; [reflexivity|]. destruct (existsb _ _).
  - apply IH.
  - rewrite IH. cbn [app map rev]. rewrite <- app_assoc. reflexivity.
Qed.
Lemma resolve_ok scopes : forall st r, resolve root lookupName scopes st = inl r ->
  exists ls, Forall2 (Answers root lookupName) scopes ls /\ r = fold_left (fun s x => pick x s) (concat ls) st.
Proof.
  induction scopes as [|x scopes IH]; intros st r E; cbn [resolve] in E.
  - injection E as <-. exists []. split; [constructor|reflexivity].
  - destruct (hasGlobChar x) eqn:G.
    + destruct (_ =? _); [discriminate|]. rewrite glob_eq in E. apply IH in E. destruct E as (ls & F & ->).
      exists (found root x :: ls). split; [constructor; auto; now apply answers_found|]. cbn [concat]. now rewrite fold_left_app.
    + destruct (lookupName x) as [s|] eqn:L; [|discriminate]. apply IH in E. destruct E as (ls & F & ->).
      exists ([s] :: ls). split; [constructor; auto; apply answers_name; eauto|]. reflexivity.
Qed.
Lemma dedup_ids l : forall seen n, In n (map s_id (dedup seen l)) <-> In n (map s_id l) /\ ~ In n seen.
Proof.
  induction l as [|s l IH]; intros seen n; cbn [dedup map]; [cbn; tauto|].
  destruct (existsb (Nat.eqb (s_id s)) seen) eqn:E.
  - rewrite IH. apply mem_iff in E. cbn [In]. split; [tauto|]. intros [[<-|K] N]; tauto.
  - assert (N : ~ In (s_id s) seen) by (rewrite <- mem_iff; congruence). cbn [map In]. rewrite IH. cbn [In].
    destruct (Nat.eq_dec (s_id s) n) as [<-|Ne]; tauto.
Qed.
Lemma resolve_fail scopes : forall st m, resolve root lookupName scopes st = inr m ->
  exists a x b ls, scopes = a ++ x :: b /\ Forall2 (Answers root lookupName) a ls /\
    ((Wild x /\ m = lit "scope '" ++ x ++ lit "' matched no symbols" /\
      forall l s, Answers root lookupName x l -> In s l -> In (s_id s) (fst st) \/ exists t, In t (concat ls) /\ s_id t = s_id s) \/
     (~ Wild x /\ m = lit "scope '" ++ x ++ lit "' not found" /\ lookupName x = None)).
Proof.
  induction scopes as [|x scopes IH]; intros st m E; cbn [resolve] in E; [discriminate|].
  destruct (hasGlobChar x) eqn:G.
  - destruct (Nat.eqb_spec (length (snd (collectGlobMatches root x st))) (length (snd st))) as [L|L].
    + injection E as <-. exists [], x, scopes, []. split; [reflexivity|]. split; [constructor|]. left.
      split; [now apply c91|]. split; [reflexivity|]. intros l s A I. left. apply (answers_found x l G) in A. subst l.
      rewrite glob_eq, pick_all in L. cbn [snd] in L. rewrite app_length in L.
      destruct (in_dec Nat.eq_dec (s_id s) (fst st)) as [K|K]; auto. exfalso.
      assert (In (s_id s) (map s_id (dedup (fst st) (found root x)))) by (apply dedup_ids; split; auto; now apply in_map).
      destruct (dedup (fst st) (found root x)); [destruct H|cbn in L; lia].
    + rewrite glob_eq in E. apply IH in E. destruct E as (a & y & b & ls & -> & F & H).
      exists (x :: a), y, b, (found root x :: ls). split; [reflexivity|]. split; [constructor; auto; now apply answers_found|].
      destruct H as [(W & -> & H)|H]; [left|right; exact H]. split; auto. split; auto. intros l s A I.
      destruct (H l s A I) as [K|(t & K & E)].
      * rewrite pick_all in K. cbn [fst] in K. apply in_app_iff in K. destruct K as [K|K]; auto.
        rewrite <- in_rev in K. apply dedup_ids in K. destruct K as [K _]. apply in_map_iff in K. destruct K as (t & E & K).
        right. exists t. split; auto. cbn [concat]. apply in_app_iff. auto.
      * right. exists t. split; auto. cbn [concat]. apply in_app_iff. auto.
  - destruct (lookupName x) as [s|] eqn:L.
    + apply IH in E. destruct E as (a & y & b & ls & -> & F & H).
      exists (x :: a), y, b, ([s] :: ls). split; [reflexivity|]. split; [constructor; auto; apply answers_name; eauto|].
      destruct H as [(W & -> & H)|H]; [left|right; exact H]. split; auto. split; auto. intros l s' A I.
      destruct (H l s' A I) as [K|(t & K & E)].
      * unfold pick in K. destruct (existsb _ _); [auto|]. cbn [fst] in K. destruct K as [K|K]; auto. right. exists s. split; auto.
        cbn [concat]. now left.
      * right. exists t. split; auto. cbn [concat]. now right.
    + injection E as <-. exists [], x, scopes, []. split; [reflexivity|]. split; [constructor|]. right.
      split; [rewrite <- c91; congruence|]. auto.
Qed.
Lemma resolve_nonempty scopes : forall st r, resolve root lookupName scopes st = inl r -> scopes <> [] \/ fst st <> [] -> 
  fst r <> [] /\ (map s_id (snd st) = rev (fst st) -> map s_id (snd r) = rev (fst r)).
Proof.
  intros st r E N. apply resolve_ok in E as E2. destruct E2 as (ls & F & ->). rewrite pick_all. cbn [fst snd]. split.
  2:{ intros K. rewrite map_app, K, rev_app_distr, rev_involutive. reflexivity. }
  destruct (fst st) as [|n seen] eqn:Ef.
  2:{ intros K. apply app_eq_nil in K. destruct K; discriminate. }
  rewrite app_nil_r. intros K. destruct N as [N|N]; [|congruence].
  apply (f_equal (@rev nat)) in K. rewrite rev_involutive in K. cbn in K.
  destruct scopes as [|x scopes]; [congruence|]. cbn [resolve] in E. destruct (hasGlobChar x) eqn:G.
  - destruct (Nat.eqb_spec (length (snd (collectGlobMatches root x st))) (length (snd st))) as [L|L]; [discriminate|].
    rewrite glob_eq, pick_all in L. cbn [snd] in L. rewrite app_length, Ef in L.
    inversion F as [|? l ? ls' A F']; subst. apply (answers_found x l G) in A. subst l. cbn [concat] in K.
    rewrite dedup_app, map_app in K. apply app_eq_nil in K. destruct K as [K _].
    destruct (dedup [] (found root x)); [cbn in L; lia|discriminate].
  - inversion F as [|? l ? ls' A F']; subst. apply (answers_name x l G) in A. destruct A as (s & A & ->). discriminate.
Qed.
Lemma c92 scopes r : resolve root lookupName scopes ([], []) = inl r ->
  exists ls, Forall2 (Answers root lookupName) scopes ls /\ Firsts [] (concat ls) (snd r) /\ (scopes <> [] -> snd r <> []).
Proof.
  intros E. destruct (resolve_ok _ _ _ E) as (ls & F & Hr). exists ls. split; auto. split.
  - rewrite Hr, pick_all. apply firsts_dedup.
  - intros N. destruct (resolve_nonempty _ _ _ E (or_introl N)) as [K Q]. specialize (Q eq_refl). intros Z. rewrite Z in Q.
    apply K. cbn in Q. apply (f_equal (@rev nat)) in Q. rewrite rev_involutive in Q. now rewrite <- Q.
Qed.
End Select.
