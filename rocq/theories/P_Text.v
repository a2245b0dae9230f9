(** Proofs about globs, scopes and range text. *)
From Coq Require Import Ascii String.
From Verif Require Import Base M_Range M_Netlist M_Text S_Text M_Query S_Query P_Query.
Notation length := List.length.

Lemma aeq_eq a b : aeq a b = true <-> a = b.
Proof. apply Ascii.eqb_eq. Qed.
Lemma aeq_neq a b : aeq a b = false <-> a <> b.
Proof. apply Ascii.eqb_neq. Qed.
Lemma aeq_refl a : aeq a a = true.
Proof. apply Ascii.eqb_refl. Qed.

(** ** Lexing *)
Lemma recur_word w r : RecWord w -> recur (w ++ r) = Some r.
Proof. intros [->| ->]; reflexivity. Qed.

Lemma recur_spec p : match recur p with
  | Some r => exists w, RecWord w /\ p = w ++ r
  | None => ~ StartsRec p
  end.
Proof.
  destruct (recur p) as [r|] eqn:E.
  - unfold recur in E. destruct p as [|a [|b p]]; try discriminate.
    destruct (aeq a c_star && aeq b c_star) eqn:H.
    + injection E as <-. apply andb_true_iff in H. rewrite !aeq_eq in H. destruct H as [-> ->].
      exists (lit "**"). split; [now left|reflexivity].
    + destruct p as [|c p]; [discriminate|].
      destruct (aeq a c_dot && aeq b c_dot && aeq c c_dot) eqn:K; [|discriminate]. injection E as <-.
      rewrite !andb_true_iff, !aeq_eq in K. destruct K as [[-> ->] ->].
      exists (lit "..."). split; [now right|reflexivity].
  - intros (w & v & Hw & ->). rewrite recur_word in E by assumption. discriminate.
Qed.

Lemma recur_token_spec p : match recur_token p with
  | Some (lead, trail, rest) => exists w, RecWord w /\ p = opt_dot lead ++ w ++ opt_dot trail ++ rest /\
      (lead = false -> ~ DotRec p) /\ (trail = false -> hd_error rest <> Some "."%char)
  | None => ~ StartsRec p /\ ~ DotRec p
  end.
Proof.
  destruct p as [|c q]; unfold recur_token; cbv zeta.
  - split.
    + intros (w & v & [->| ->] & E); discriminate.
    + intros (v & E & _). discriminate.
  - set (trail := fun (lead : bool) (r : str) => match r with
      | [] => Some (lead, false, r)
      | c0 :: r' => if aeq c0 c_dot then Some (lead, true, r') else Some (lead, false, r) end).
    assert (T : forall lead r w, RecWord w -> c :: q = opt_dot lead ++ w ++ r ->
       (lead = false -> ~ DotRec (c :: q)) ->
       match trail lead r with
       | Some (lead, tr, rest) => exists w, RecWord w /\ c :: q = opt_dot lead ++ w ++ opt_dot tr ++ rest /\
           (lead = false -> ~ DotRec (c :: q)) /\ (tr = false -> hd_error rest <> Some "."%char)
       | None => ~ StartsRec (c :: q) /\ ~ DotRec (c :: q)
       end).
    { intros lead r w Hw E HL. unfold trail. destruct r as [|d r].
      - exists w. repeat split; auto. simpl. intros _. discriminate.
      - destruct (aeq d c_dot) eqn:D.
        + apply aeq_eq in D. subst d. exists w. repeat split; auto. discriminate.
        + apply aeq_neq in D. exists w. repeat split; auto. simpl. intros _ C. injection C as C. now apply D. }
    pose proof (recur_spec q) as Rq. pose proof (recur_spec (c :: q)) as Rc.
    destruct (aeq c c_dot) eqn:D.
    + apply aeq_eq in D. destruct (recur q) as [r|].
      * destruct Rq as (w & Hw & ->). apply (T true r w Hw); [now rewrite D|discriminate].
      * assert (ND : ~ DotRec (c :: q)).
        { intros (v & E & Hv). injection E as _ ->. tauto. }
        destruct (recur (c :: q)) as [r|]; [|auto]. destruct Rc as (w & Hw & E).
        apply (T false r w Hw); auto.
    + apply aeq_neq in D. assert (ND : ~ DotRec (c :: q)).
      { intros (v & E & Hv). injection E as E _. now apply D. }
      destruct (recur (c :: q)) as [r|]; [|auto]. destruct Rc as (w & Hw & E).
      apply (T false r w Hw); auto.
Qed.

Lemma recur_token_len p lead trail rest : recur_token p = Some (lead, trail, rest) ->
  (S (length rest) <= length p)%nat.
Proof.
  intros E. pose proof (recur_token_spec p) as H. rewrite E in H.
  destruct H as (w & Hw & -> & _). rewrite !app_length.
  destruct Hw as [->| ->]; simpl; lia.
Qed.

Lemma dot_not_star (v : str) : ~ DotRec ("*"%char :: v).
Proof. intros (x & E & _). discriminate. Qed.

(** One reading step is forced. *)
Lemma recur_token_rec lead w trail p :
  RecWord w -> (lead = false -> ~ DotRec (w ++ opt_dot trail ++ p)) ->
  (trail = false -> hd_error p <> Some "."%char) ->
  recur_token (opt_dot lead ++ w ++ opt_dot trail ++ p) = Some (lead, trail, p).
Proof.
  intros Hw HL HT.
  assert (TR : match opt_dot trail ++ p with
      | [] => Some (lead, false, opt_dot trail ++ p)
      | c0 :: r' => if aeq c0 c_dot then Some (lead, true, r') else Some (lead, false, opt_dot trail ++ p) end
      = Some (lead, trail, p)).
  { destruct trail; simpl; [reflexivity|]. destruct p as [|d p]; [reflexivity|].
    destruct (aeq d c_dot) eqn:D; [|reflexivity]. apply aeq_eq in D. subst.
    exfalso. now apply HT. }
  destruct lead; simpl opt_dot.
  - simpl app at 1. unfold recur_token. simpl aeq. cbv iota. rewrite recur_word by assumption. exact TR.
  - simpl app at 1. specialize (HL eq_refl).
    destruct (w ++ opt_dot trail ++ p) as [|c q] eqn:E.
    { destruct Hw as [->| ->]; discriminate. }
    unfold recur_token.
    assert (R1 : (if aeq c c_dot then recur q else None) = None).
    { destruct (aeq c c_dot) eqn:D; [|reflexivity]. apply aeq_eq in D. subst c.
      pose proof (recur_spec q) as Rq. destruct (recur q) as [r|]; [|reflexivity].
      exfalso. apply HL. exists q. split; [reflexivity|]. destruct Rq as (w' & H1 & H2). exists w', r. auto. }
    rewrite R1, <- E, recur_word by assumption. exact TR.
Qed.

Definition char_tok (c : ascii) : tok :=
  if aeq c c_star then TStar else if aeq c c_q then TAny else TLit c.

Lemma lex_step P ts : Lex P ts ->
  match P with
  | [] => ts = []
  | c :: p => match recur_token P with
              | Some (l, t, rest) => exists ts', ts = TRec l t :: ts' /\ Lex rest ts'
              | None => exists ts', ts = char_tok c :: ts' /\ Lex p ts'
              end
  end.
Proof.
  intros H. destruct H as [|lead r trail p ts Hr HL HT H|p ts Hs H|p ts H|c p ts H1 H2 H3 H4 H].
  - reflexivity.
  - pose proof (recur_token_rec lead r trail p Hr HL HT) as E.
    destruct (opt_dot lead ++ r ++ opt_dot trail ++ p) as [|c q] eqn:F.
    { destruct lead; [discriminate|]. destruct Hr as [->| ->]; discriminate. }
    rewrite E. eauto.
  - pose proof (recur_token_spec ("*"%char :: p)) as K. destruct (recur_token _) as [[[l t] rest]|].
    + destruct K as (w & Hw & E & _). destruct l.
      * simpl in E. discriminate.
      * exfalso. apply Hs. exists w, (opt_dot t ++ rest). auto.
    + exists ts. auto.
  - pose proof (recur_token_spec ("?"%char :: p)) as K. destruct (recur_token _) as [[[l t] rest]|].
    + destruct K as (w & Hw & E & _). destruct l; [discriminate|].
      destruct Hw as [->| ->]; discriminate.
    + exists ts. auto.
  - pose proof (recur_token_spec (c :: p)) as K. destruct (recur_token _) as [[[l t] rest]|].
    + destruct K as (w & Hw & E & _). destruct l.
      * exfalso. apply H4. injection E as -> E. exists p. split; [reflexivity|]. exists w, (opt_dot t ++ rest). auto.
      * exfalso. apply H3. exists w, (opt_dot t ++ rest). auto.
    + exists ts. split; [|assumption]. unfold char_tok.
      assert (A1 : aeq c c_star = false) by now apply aeq_neq.
      assert (A2 : aeq c c_q = false) by now apply aeq_neq.
      now rewrite A1, A2.
Qed.

Lemma lex_unique : forall n P ts ts', (length P <= n)%nat -> Lex P ts -> Lex P ts' -> ts = ts'.
Proof.
  induction n as [|n IH]; intros P ts ts' Hn H1 H2; apply lex_step in H1; apply lex_step in H2;
    (destruct P as [|c p]; [congruence|]); [simpl in Hn; lia|].
  destruct (recur_token (c :: p)) as [[[l t] rest]|] eqn:E.
  - destruct H1 as (a & -> & Ha). destruct H2 as (b & -> & Hb). f_equal.
    apply recur_token_len in E. eapply IH; eauto. lia.
  - destruct H1 as (a & -> & Ha). destruct H2 as (b & -> & Hb). f_equal.
    eapply IH; eauto. simpl in Hn. lia.
Qed.

(** ** The text loops *)
Section Loops.
  Context (k : str -> option bool) (M : str -> Prop).
  Hypothesis HK : forall t, exists b, k t = Some b /\ (b = true <-> M t).

  Lemma orelse_spec a b (A B : Prop) :
    (exists x, a = Some x /\ (x = true <-> A)) -> (exists x, b = Some x /\ (x = true <-> B)) ->
    exists x, orelse a b = Some x /\ (x = true <-> A \/ B).
  Proof.
    intros (x & -> & Hx) (y & -> & Hy). destruct x; simpl.
    - exists true. split; [reflexivity|]. tauto.
    - exists y. split; [reflexivity|]. rewrite Hy. intuition discriminate.
  Qed.

  Lemma any_suffix_spec t : exists b, any_suffix k t = Some b /\
    (b = true <-> exists a c, t = a ++ c /\ M c).
  Proof.
    induction t as [|x t IH]; simpl.
    - destruct (orelse_spec (k []) (Some false) (M []) False (HK [])) as (b & E & Hb).
      { exists false. intuition discriminate. }
      exists b. split; [exact E|]. rewrite Hb. split.
      + intros [H|[]]. exists [], []. auto.
      + intros (a & c & H & Hc). symmetry in H. apply app_eq_nil in H. destruct H as [-> ->]. now left.
    - destruct (orelse_spec (k (x :: t)) (any_suffix k t) _ _ (HK (x :: t)) IH) as (b & E & Hb).
      exists b. split; [exact E|]. rewrite Hb. split.
      + intros [H|(a & c & -> & Hc)]; [exists [], (x :: t)|exists (x :: a), c]; auto.
      + intros ([|y a] & c & H & Hc); simpl in H; [left; now subst|].
        injection H as <- ->. right. eauto.
  Qed.

  Lemma after_dots_spec t : exists b, after_dots k t = Some b /\
    (b = true <-> exists x c, t = x ++ "."%char :: c /\ M c).
  Proof.
    induction t as [|d t IH]; simpl.
    - exists false. split; [reflexivity|]. split; [discriminate|].
      intros ([|? ?] & c & H & _); discriminate.
    - destruct (aeq d c_dot) eqn:D.
      + apply aeq_eq in D. subst d.
        destruct (orelse_spec (k t) (after_dots k t) _ _ (HK t) IH) as (b & E & Hb).
        exists b. split; [exact E|]. rewrite Hb. split.
        * intros [H|(x & c & -> & Hc)]; [exists [], t|exists (c_dot :: x), c]; auto.
        * intros ([|y x] & c & H & Hc); simpl in H; inversion H; subst; [now left|right; eauto].
      + apply aeq_neq in D. destruct IH as (b & E & Hb). exists b. split; [exact E|]. rewrite Hb. split.
        * intros (x & c & -> & Hc). exists (d :: x), c. auto.
        * intros ([|y x] & c & H & Hc); simpl in H; inversion H; subst.
          -- exfalso. now apply D.
          -- eauto.
  Qed.

  Lemma any_segment_spec t : exists b, any_segment k t = Some b /\
    (b = true <-> exists a c, t = a ++ c /\ ~ In "."%char a /\ M c).
  Proof.
    induction t as [|x t IH]; simpl.
    - destruct (orelse_spec (k []) (Some false) (M []) False (HK [])) as (b & E & Hb).
      { exists false. intuition discriminate. }
      exists b. split; [exact E|]. rewrite Hb. split.
      + intros [H|[]]. exists [], []. auto.
      + intros (a & c & H & _ & Hc). symmetry in H. apply app_eq_nil in H. destruct H as [-> ->]. now left.
    - destruct (aeq x c_dot) eqn:D.
      + apply aeq_eq in D. subst x.
        destruct (orelse_spec (k (c_dot :: t)) (Some false) _ False (HK (c_dot :: t))) as (b & E & Hb).
        { exists false. intuition discriminate. }
        exists b. split; [exact E|]. rewrite Hb. split.
        * intros [H|[]]. exists [], (c_dot :: t). auto.
        * intros ([|y a] & c & H & Hn & Hc); simpl in H; [left; now subst|].
          injection H as <- ->. exfalso. apply Hn. now left.
      + apply aeq_neq in D.
        destruct (orelse_spec (k (x :: t)) (any_segment k t) _ _ (HK (x :: t)) IH) as (b & E & Hb).
        exists b. split; [exact E|]. rewrite Hb. split.
        * intros [H|(a & c & -> & Hn & Hc)]; [exists [], (x :: t); auto|].
          exists (x :: a), c. repeat split; auto. intros [C|C]; [now apply D|auto].
        * intros ([|y a] & c & H & Hn & Hc); simpl in H; [left; now subst|].
          injection H as <- ->. right. exists a, c. repeat split; auto. intros C. apply Hn. now right.
  Qed.
End Loops.

(** ** wildcardMatch *)
Lemma wm_spec : forall fuel pat, (length pat < fuel)%nat ->
  exists ts, Lex pat ts /\ forall text, exists b, wm fuel text pat = Some b /\ (b = true <-> Matches ts text).
Proof.
  induction fuel as [|f IH]; intros pat Hf; [lia|]. destruct pat as [|c p].
  - exists []. split; [constructor|]. intros text. simpl. destruct text as [|x t].
    + exists true. intuition.
    + exists false. split; [reflexivity|]. split; discriminate.
  - pose proof (recur_token_spec (c :: p)) as K.
    destruct (recur_token (c :: p)) as [[[l t] rest]|] eqn:E.
    + destruct K as (w & Hw & EP & HL & HT).
      assert (LR : (length rest < f)%nat) by (apply recur_token_len in E; simpl in *; lia).
      destruct (IH rest LR) as (ts & Hts & HM). exists (TRec l t :: ts). split.
      * rewrite EP. apply lex_rec; auto. intros ->. simpl in EP. rewrite <- EP. auto.
      * intros text. cbn [wm]. rewrite E.
        assert (HK : forall x, exists b, (fun x => wm f x rest) x = Some b /\ (b = true <-> Matches ts x)) by exact HM.
        destruct l, t; cbn [Matches TokLang].
        -- (* .**. *) destruct text as [|d t'].
           { exists false. split; [reflexivity|]. split; [discriminate|].
             intros (a & b & H & [->|(x & ->)] & _); discriminate. }
           destruct (aeq d c_dot) eqn:D.
           ++ apply aeq_eq in D. subst d.
              destruct (orelse_spec _ _ _ _ (HM t') (after_dots_spec _ _ HK t')) as (b & Eb & Hb).
              exists b. split; [exact Eb|]. rewrite Hb. split.
              ** intros [H|(x & y & -> & H)].
                 --- exists (lit "."), t'. repeat split; auto.
                 --- exists (lit "." ++ x ++ lit "."), y. repeat split; [|right; eauto|assumption].
                     simpl. now rewrite <- app_assoc.
              ** intros (a & y & H & [->|(x & ->)] & Hy).
                 --- simpl in H. injection H as ->. now left.
                 --- simpl in H. injection H as ->. rewrite <- app_assoc. right. exists x, y. auto.
           ++ apply aeq_neq in D. exists false. split; [reflexivity|]. split; [discriminate|].
              intros (a & b & H & [->|(x & ->)] & _); simpl in H; injection H as H _; exfalso; now apply D.
        -- (* .** *)
           assert (H2 : exists x, match text with
               | [] => Some false
               | d :: t' => if aeq d c_dot then any_suffix (fun t => wm f t rest) t' else Some false end = Some x /\
               (x = true <-> exists u v, text = lit "." ++ u ++ v /\ Matches ts v)).
           { destruct text as [|d t'].
             { exists false. split; [reflexivity|]. split; [discriminate|]. intros (u & v & H & _). discriminate. }
             destruct (aeq d c_dot) eqn:D.
             - apply aeq_eq in D. subst d. destruct (any_suffix_spec _ _ HK t') as (x & Ex & Hx).
               exists x. split; [exact Ex|]. rewrite Hx. split; intros (u & v & H & Hv); exists u, v.
               + now subst.
               + simpl in H. injection H as H. auto.
             - apply aeq_neq in D. exists false. split; [reflexivity|]. split; [discriminate|].
               intros (u & v & H & _). simpl in H. injection H as H _. exfalso. now apply D. }
           destruct (orelse_spec _ _ _ _ (HM text) H2) as (b & Eb & Hb). exists b. split; [exact Eb|].
           rewrite Hb. split.
           ++ intros [H|(u & v & -> & H)].
              ** exists [], text. auto.
              ** exists (lit "." ++ u), v. repeat split; eauto.
           ++ intros (a & v & -> & [->|(x & ->)] & H); [now left|]. right. exists x, v. auto.
        -- (* **. *)
           destruct (orelse_spec _ _ _ _ (HM text) (after_dots_spec _ _ HK text)) as (b & Eb & Hb).
           exists b. split; [exact Eb|]. rewrite Hb. split.
           ++ intros [H|(x & y & -> & H)].
              ** exists [], text. auto.
              ** exists (x ++ lit "."), y. repeat split; [|eauto|assumption]. now rewrite <- app_assoc.
           ++ intros (a & y & -> & [->|(x & ->)] & H); [now left|]. right. exists x, y.
              rewrite <- app_assoc. auto.
        -- (* ** *)
           destruct (any_suffix_spec _ _ HK text) as (b & Eb & Hb). exists b. split; [exact Eb|].
           rewrite Hb. split; intros (x & y & H); exists x, y; tauto.
    + destruct K as [K1 K2]. assert (LR : (length p < f)%nat) by (simpl in Hf; lia).
      destruct (IH p LR) as (ts & Hts & HM).
      assert (HK : forall x, exists b, (fun x => wm f x p) x = Some b /\ (b = true <-> Matches ts x)) by exact HM.
      exists (char_tok c :: ts). unfold char_tok. split.
      * destruct (aeq c c_star) eqn:E1; [apply aeq_eq in E1; subst; now constructor|].
        destruct (aeq c c_q) eqn:E2; [apply aeq_eq in E2; subst; now constructor|].
        apply aeq_neq in E1. apply aeq_neq in E2. now constructor.
      * intros text. cbn [wm]. rewrite E.
        destruct (aeq c c_star) eqn:E1; cbn [Matches TokLang].
        { destruct (any_segment_spec _ _ HK text) as (b & Eb & Hb). exists b. split; [exact Eb|exact Hb]. }
        destruct (aeq c c_q) eqn:E2; cbn [Matches TokLang].
        { destruct text as [|d t'].
          - exists false. split; [reflexivity|]. split; [discriminate|].
            intros (a & b & H & (x & _ & ->) & _). discriminate.
          - destruct (aeq d c_dot) eqn:D.
            + apply aeq_eq in D. subst d. exists false. split; [reflexivity|]. split; [discriminate|].
              intros (a & b & H & (x & Hx & ->) & _). simpl in H. injection H as H _. exfalso. now apply Hx.
            + apply aeq_neq in D. destruct (HM t') as (b & Eb & Hb). exists b. split; [exact Eb|]. rewrite Hb. split.
              * intros H. exists [d], t'. repeat split; eauto.
              * intros (a & y & H & (x & _ & ->) & Hy). simpl in H. injection H as _ ->. assumption. }
        destruct text as [|d t'].
        { exists false. split; [reflexivity|]. split; [discriminate|].
          intros (a & b & H & -> & _). discriminate. }
        destruct (aeq c d) eqn:D.
        { apply aeq_eq in D. subst d. destruct (HM t') as (b & Eb & Hb). exists b. split; [exact Eb|]. rewrite Hb. split.
          - intros H. exists [c], t'. auto.
          - intros (a & y & H & -> & Hy). simpl in H. injection H as ->. assumption. }
        { apply aeq_neq in D. exists false. split; [reflexivity|]. split; [discriminate|].
          intros (a & b & H & -> & _). simpl in H. injection H as H _. congruence. }
Qed.

Lemma c23 text pat : exists b ts, wildcardMatch text pat = Some b /\ Lex pat ts /\
  (forall ts', Lex pat ts' -> ts' = ts) /\ (b = true <-> Matches ts text).
Proof.
  destruct (wm_spec (S (length pat)) pat) as (ts & Hts & HM); [lia|].
  destruct (HM text) as (b & Eb & Hb). exists b, ts. repeat split; auto; try apply Hb.
  intros ts' H. eapply lex_unique; eauto.
Qed.

(** A text matches under any reading of the pattern. *)
Lemma wm_by_lex text pat ts : Lex pat ts -> (wildcardMatch text pat = Some true <-> Matches ts text).
Proof.
  intros H. destruct (c23 text pat) as (b & ts' & E & _ & U & HM). rewrite (U ts H), <- HM, E.
  split; [intros K; now injection K|now intros ->].
Qed.

(** Matching a run of literal characters. *)
Lemma matches_lits s ts t : Matches (map TLit s ++ ts) t <-> exists r, t = s ++ r /\ Matches ts r.
Proof.
  revert t. induction s as [|c s IH]; intros t; simpl.
  - split; [eauto|]. intros (r & -> & H). assumption.
  - split.
    + intros (a & b & -> & -> & H). apply IH in H. destruct H as (r & -> & H). exists r. auto.
    + intros (r & -> & H). exists [c], (s ++ r). repeat split; auto. apply IH. eauto.
Qed.

(** ** Scopes *)
Lemma c24 p s : pathInScope p s = true <-> InScope p s.
Proof.
  unfold pathInScope, InScope.
  destruct (Nat.ltb_spec (length p) (length s)) as [L|L]; simpl.
  - split; [discriminate|]. intros [->|(r & ->)]; [lia|]. rewrite !app_length in L. lia.
  - destruct (str_eqb (firstn (length s) p) s) eqn:E; simpl.
    + apply str_eqb_eq in E. pose proof (firstn_skipn (length s) p) as FS. rewrite E in FS.
      destruct (skipn (length s) p) as [|c r].
      * rewrite app_nil_r in FS. subst. rewrite Nat.eqb_refl. simpl. split; auto.
      * assert (NE : Nat.eqb (length p) (length s) = false).
        { apply Nat.eqb_neq. rewrite <- FS, app_length. simpl. lia. }
        rewrite NE. simpl. rewrite aeq_eq. split.
        -- intros ->. right. exists r. now rewrite <- FS.
        -- intros [->|(r' & H)].
           ++ rewrite Nat.eqb_refl in NE. discriminate.
           ++ rewrite H in FS. apply app_inv_head in FS. simpl in FS. now injection FS.
    + split; [discriminate|]. intros H. exfalso.
      assert (F : firstn (length s) p = s).
      { destruct H as [->|(r & ->)]; [apply firstn_all|]. rewrite firstn_app, Nat.sub_diag, firstn_all. simpl.
        apply app_nil_r. }
      apply str_eqb_eq in F. congruence.
Qed.

Lemma c24_refl p : pathInScope p p = true.
Proof. apply c24. now left. Qed.
Lemma c24_trans a b c : pathInScope a b = true -> pathInScope b c = true -> pathInScope a c = true.
Proof.
  rewrite !c24. intros [->|(r & ->)] [->|(r' & ->)].
  - now left.
  - right. eauto.
  - right. eauto.
  - right. exists (r' ++ lit "." ++ r). now rewrite <- !app_assoc.
Qed.

(** No wildcard characters, and no run of dots that would read as `...'. *)
Definition Plain (s : str) : Prop :=
  ~ In "*"%char s /\ ~ In "?"%char s /\ forall u v, s ++ lit "." <> u ++ lit "..." ++ v.

Lemma plain_lex s : Plain s -> Lex (s ++ lit ".**") (map TLit s ++ [TRec true false]).
Proof.
  induction s as [|c s IH]; intros (H1 & H2 & H3); simpl.
  - apply (lex_rec true (lit "**") false [] []); [now left|discriminate|discriminate|constructor].
  - assert (P : Plain s).
    { split; [intros C; apply H1; now right|]. split; [intros C; apply H2; now right|].
      intros u v E. apply (H3 (c :: u) v). change ((c :: s) ++ lit ".") with (c :: (s ++ lit ".")). rewrite E. reflexivity. }
    specialize (IH P). 
    assert (NR : forall t, s ++ lit ".**" = t -> ~ (c = "."%char /\ exists v, t = lit ".." ++ v)).
    { intros t <- [-> (v & E)]. 
      destruct s as [|d [|e s]]; simpl in E; inversion E; subst.
      - apply (H3 [] []). reflexivity.
      - apply (H3 [] (s ++ lit ".")). reflexivity. }
    constructor; auto.
    + intros ->. apply H1. now left.
    + intros ->. apply H2. now left.
    + intros (w & v & [->| ->] & E).
      * simpl in E. injection E as -> E. apply H1. now left.
      * simpl in E. injection E as -> E. apply (NR _ E). split; [reflexivity|]. exists v. reflexivity.
    + intros (x & E & (w & v & Hw & ->)). injection E as -> E. destruct Hw as [->| ->].
      * destruct s as [|d s]; [discriminate|]. simpl in E. injection E as -> E. apply H1. right. now left.
      * apply (NR _ E). split; [reflexivity|]. exists ("."%char :: v). reflexivity.
Qed.

Lemma c24_glob p s : Plain s ->
  (pathInScope p s = true <-> wildcardMatch p (s ++ lit ".**") = Some true).
Proof.
  intros H. rewrite c24, (wm_by_lex _ _ _ (plain_lex s H)), matches_lits. simpl. unfold InScope. split.
  - intros [->|(r & ->)].
    + exists []. rewrite app_nil_r. split; [reflexivity|]. exists [], []. auto.
    + exists (lit "." ++ r). split; [reflexivity|]. exists (lit "." ++ r), []. rewrite app_nil_r.
      split; [reflexivity|]. split; [right; now exists r|reflexivity].
  - intros (r & -> & a & b & -> & [->|(x & ->)] & ->).
    + left. now rewrite app_nil_r.
    + right. exists x. now rewrite app_nil_r.
Qed.

(** ** Spelling of the recursive wildcard *)
Definition NoTail (u : str) : Prop := forall w c, u = w ++ [c] -> c <> "."%char /\ c <> "*"%char.

Lemma ds_prefix u W x y : u <> [] -> NoTail u -> u ++ W = x ++ y ->
  (forall z, In z x -> z = "."%char \/ z = "*"%char) -> exists v, v <> [] /\ u = x ++ v.
Proof.
  intros Hne Hu E HX. destruct (le_lt_dec (length u) (length x)) as [L|L].
  - exfalso. destruct (exists_last Hne) as (w & z & Ez). destruct (Hu w z Ez) as [N1 N2].
    assert (In z x).
    { assert (F : firstn (length u) x = u).
      { apply (f_equal (firstn (length u))) in E. rewrite !firstn_app, Nat.sub_diag, firstn_all in E.
        replace (length u - length x)%nat with 0%nat in E by lia.
        simpl in E. rewrite !app_nil_r in E. now symmetry. }
      rewrite <- (firstn_skipn (length u) x), F, Ez.
      apply in_app_iff. left. apply in_app_iff. right. now left. }
    destruct (HX z H) as [->| ->]; tauto.
  - assert (F : firstn (length x) u = x).
    { apply (f_equal (firstn (length x))) in E. rewrite !firstn_app, Nat.sub_diag, firstn_all in E.
      replace (length x - length u)%nat with 0%nat in E by lia.
      simpl in E. rewrite !app_nil_r in E. assumption. }
    exists (skipn (length x) u). split.
    + intros C. apply (f_equal (@length ascii)) in C. rewrite skipn_length in C. simpl in C. lia.
    + rewrite <- F at 1. now rewrite firstn_skipn.
Qed.

Lemma recword_ds w z : RecWord w -> In z w -> z = "."%char \/ z = "*"%char.
Proof. intros [->| ->]; simpl; intuition. Qed.

Lemma startsrec_app u W : u <> [] -> NoTail u -> StartsRec (u ++ W) -> StartsRec u.
Proof.
  intros H1 H2 (w & v & Hw & E). destruct (ds_prefix u W w v H1 H2 E) as (v' & _ & ->).
  - intros z. now apply recword_ds.
  - exists w, v'. auto.
Qed.
Lemma dotrec_app u W : u <> [] -> NoTail u -> DotRec (u ++ W) -> DotRec u.
Proof.
  intros H1 H2 (v & E & (w & v' & Hw & ->)).
  destruct (ds_prefix u W ("."%char :: w) v' H1 H2 E) as (x & _ & ->).
  - intros z [<-|Hz]; [now left|]. now apply (recword_ds w).
  - exists (w ++ x). split; [reflexivity|]. exists w, x. auto.
Qed.

Lemma NoTail_suffix a b : NoTail (a ++ b) -> NoTail b.
Proof. intros H w c ->. apply (H (a ++ w) c). now rewrite app_assoc. Qed.

Lemma NoTail_ds x : NoTail x -> (forall z, In z x -> z = "."%char \/ z = "*"%char) -> x = [].
Proof.
  intros H HX. destruct x as [|c x]; [reflexivity|exfalso].
  destruct (exists_last (l := c :: x)) as (w & z & Ez); [discriminate|]. rewrite Ez in H, HX.
  destruct (H w z eq_refl) as [N1 N2]. destruct (HX z) as [->| ->]; [|tauto|tauto].
  apply in_app_iff. right. now left.
Qed.

Lemma lex_app u tu W tw : Lex u tu -> NoTail u -> Lex W tw -> Lex (u ++ W) (tu ++ tw).
Proof.
  intros H Hu HW. induction H as [|lead r trail p ts Hr HL HT H IH|p ts Hs H IH|p ts H IH|c p ts H1 H2 H3 H4 H IH].
  - exact HW.
  - assert (Np : p <> []).
    { intros ->. rewrite app_nil_r in Hu. apply NoTail_ds in Hu.
      - destruct lead; [discriminate|]. destruct Hr as [->| ->]; discriminate.
      - intros z. rewrite !in_app_iff. destruct lead, trail; destruct Hr as [->| ->]; simpl; intuition. }
    rewrite <- !app_assoc. simpl. constructor; auto.
    + intros E C. apply HL; auto. rewrite !app_assoc in C. rewrite <- (app_assoc r) in C. 
      apply dotrec_app in C; auto.
      * destruct Hr as [->| ->]; discriminate.
      * apply NoTail_suffix in Hu. exact Hu.
    + intros E. destruct p; [congruence|]. apply HT. exact E.
    + apply IH. apply NoTail_suffix in Hu. do 2 apply NoTail_suffix in Hu. exact Hu.
  - simpl. constructor.
    + intros C. apply Hs. apply (startsrec_app _ W); auto. discriminate.
    + apply IH. now apply (NoTail_suffix ["*"%char]).
  - simpl. constructor. apply IH. now apply (NoTail_suffix ["?"%char]).
  - simpl. constructor; auto.
    + intros C. apply H3. apply (startsrec_app _ W); auto. discriminate.
    + intros C. apply H4. apply (dotrec_app _ W); auto. discriminate.
    + apply IH. now apply (NoTail_suffix [c]).
Qed.

Lemma lex_total p : exists ts, Lex p ts.
Proof. destruct (wm_spec (S (length p)) p) as (ts & H & _); [lia|eauto]. Qed.

Lemma wm_same_lex text p q ts : Lex p ts -> Lex q ts -> wildcardMatch text p = wildcardMatch text q.
Proof.
  intros H1 H2. destruct (c23 text p) as (b & tp & E1 & _ & U1 & M1).
  destruct (c23 text q) as (b' & tq & E2 & _ & U2 & M2). rewrite E1, E2. f_equal.
  rewrite <- (U1 _ H1) in M1. rewrite <- (U2 _ H2) in M2. destruct b, b'; auto.
  - symmetry. apply M2, M1. reflexivity.
  - apply M1, M2. reflexivity.
Qed.

(** u ++ "**" ++ v against u ++ "..." ++ v, when the surroundings do not run into the
    dots: v does not start with a dot ... *)
Lemma c23_spelling_plain text u v : NoTail u -> hd_error v <> Some "."%char ->
  wildcardMatch text (u ++ lit "**" ++ v) = wildcardMatch text (u ++ lit "..." ++ v).
Proof.
  intros Hu Hv. destruct (lex_total v) as (tv & Htv). destruct (lex_total u) as (tu & Htu).
  assert (L : forall w, RecWord w -> Lex (w ++ v) (TRec false false :: tv)).
  { intros w Hw. apply (lex_rec false w false v tv Hw).
    - intros _ (x & E & (w' & v' & Hw' & ->)). simpl in E. destruct Hw as [->| ->]; simpl in E; injection E as E; [discriminate|].
      destruct Hw' as [->| ->]; simpl in E; [discriminate|]. injection E as E. subst. now apply Hv.
    - auto.
    - exact Htv. }
  apply (wm_same_lex _ _ _ (tu ++ TRec false false :: tv)); apply lex_app; auto; apply L; [now left|now right].
Qed.

(** ... or u ends in exactly one dot of its own. *)
Lemma c23_spelling_dot text u v : NoTail u ->
  wildcardMatch text (u ++ lit "." ++ lit "**" ++ v) = wildcardMatch text (u ++ lit "." ++ lit "..." ++ v).
Proof.
  intros Hu. destruct (lex_total u) as (tu & Htu).
  assert (L : exists tv, forall w, RecWord w -> Lex (lit "." ++ w ++ v) tv).
  { assert (D : (exists v', v = lit "." ++ v') \/ hd_error v <> Some "."%char).
    { destruct v as [|c v']; [right; discriminate|]. destruct (ascii_dec c "."%char) as [->|N].
      - left. now exists v'.
      - right. simpl. congruence. }
    destruct D as [(v' & ->)|D].
    - destruct (lex_total v') as (tv & Htv). exists (TRec true true :: tv). intros w Hw.
      apply (lex_rec true w true v' tv Hw); auto; discriminate.
    - destruct (lex_total v) as (tv & Htv). exists (TRec true false :: tv). intros w Hw.
      apply (lex_rec true w false v tv Hw); auto; discriminate. }
  destruct L as (tv & L).
  apply (wm_same_lex _ _ _ (tu ++ tv)); apply lex_app; auto; apply L; [now left|now right].
Qed.

(** ** Integers as text *)
Local Open Scope Z_scope.

Lemma digit_val_iff c v : digit_val c = Some v <-> IsDigit c v.
Proof.
  unfold digit_val, IsDigit.
  destruct (Z.leb_spec 0 (Z.of_nat (nat_of_ascii c) - 48));
    destruct (Z.leb_spec (Z.of_nat (nat_of_ascii c) - 48) 9); cbv [andb].
  - split; [intros [= <-]; lia|intros K; f_equal; lia].
  - split; [discriminate|intros K; lia].
  - split; [discriminate|intros K; lia].
  - split; [discriminate|intros K; lia].
Qed.

Lemma digits_val_iff s : forall a z, digits_val a s = Some z <-> DigitsVal a s z.
Proof.
  induction s as [|c s IH]; intros a z; simpl.
  - split; [intros [= <-]; constructor|]. intros H. inversion H. reflexivity.
  - split.
    + destruct (digit_val c) as [v|] eqn:E; [|discriminate]. intros H. apply digit_val_iff in E.
      econstructor; eauto. now apply IH.
    + intros H. inversion H as [|? ? v ? ? HD HR]; subst. rewrite (proj2 (digit_val_iff c v) HD). now apply IH.
Qed.

Lemma minus_not_digit v : ~ IsDigit "-"%char v.
Proof. intros [H E]. change (Z.of_nat (nat_of_ascii "-")) with 45 in E. lia. Qed.

Lemma is_int32_iff z : is_int32 z = true <-> int32 z.
Proof. unfold is_int32, int32. rewrite andb_true_iff, !Z.leb_le. tauto. Qed.

Lemma parse_nat_iff s z : parse_nat s = Some z <-> s <> [] /\ DigitsVal 0 s z.
Proof.
  unfold parse_nat. destruct s as [|c s].
  - split; [discriminate|]. intros [H _]. congruence.
  - rewrite digits_val_iff. split; [|tauto]. intros H. split; [discriminate|exact H].
Qed.

Lemma parseInt_iff s z : parseInt s = Some z <-> IntText s z.
Proof.
  unfold parseInt, IntText.
  set (raw := match s with [] => None | c :: r => _ end).
  assert (R : forall v, raw = Some v <-> (s <> [] /\ DigitsVal 0 s v) \/
                 exists t, t <> [] /\ s = lit "-" ++ t /\ DigitsVal 0 t (- v)).
  { intros v. unfold raw. destruct s as [|c r].
    - split; [discriminate|]. intros [[H _]|(t & _ & H & _)]; [congruence|discriminate].
    - destruct (aeq c c_minus) eqn:E.
      + apply aeq_eq in E. subst c. split.
        * destruct (parse_nat r) as [w|] eqn:P; [|discriminate]. simpl. intros [= <-].
          apply parse_nat_iff in P. right. exists r. rewrite Z.opp_involutive. tauto.
        * intros [[_ H]|(t & Ht & H & HV)].
          -- inversion H as [|? ? v' ? ? HD HR]; subst. exfalso. now apply minus_not_digit in HD.
          -- simpl in H. injection H as ->. rewrite (proj2 (parse_nat_iff t (- v))) by tauto.
             simpl. now rewrite Z.opp_involutive.
      + apply aeq_neq in E. rewrite parse_nat_iff. split; [tauto|]. intros [H|(t & _ & H & _)]; [exact H|].
        simpl in H. injection H as -> _. exfalso. now apply E. }
  split.
  - destruct raw as [v|]; [|discriminate]. destruct (is_int32 v) eqn:E; [|discriminate]. intros [= <-].
    apply is_int32_iff in E. split; [exact E|]. now apply R.
  - intros [Hz H]. apply R in H. rewrite H. rewrite (proj2 (is_int32_iff z) Hz). reflexivity.
Qed.

Lemma digit_ok d : 0 <= d <= 9 -> IsDigit (digit d) d.
Proof.
  intros H. assert (C : d = 0 \/ d = 1 \/ d = 2 \/ d = 3 \/ d = 4 \/ d = 5 \/ d = 6 \/ d = 7 \/ d = 8 \/ d = 9) by lia.
  repeat destruct C as [->|C]; try subst d; (split; [lia|reflexivity]).
Qed.

Lemma udigits_val : forall fuel n acc, 0 <= n < 2 ^ Z.of_nat fuel ->
  digits_val 0 (udigits fuel n acc) = digits_val n acc.
Proof.
  induction fuel as [|k IH]; intros n acc H.
  - simpl in *. replace n with 0 by lia. reflexivity.
  - cbn [udigits]. pose proof (Z.mod_pos_bound n 10 ltac:(lia)) as M.
    destruct (Z.ltb_spec n 10) as [L|L].
    + rewrite Z.mod_small by lia. cbn [digits_val].
      rewrite (proj2 (digit_val_iff _ n) (digit_ok n ltac:(lia))). reflexivity.
    + rewrite IH.
      * cbn [digits_val]. rewrite (proj2 (digit_val_iff _ _) (digit_ok (n mod 10) ltac:(lia))).
        f_equal. rewrite <- Z.div_mod; lia.
      * rewrite Nat2Z.inj_succ, Z.pow_succ_r in H by lia. split; [apply Z.div_pos; lia|].
        apply Z.div_lt_upper_bound; lia.
Qed.

Lemma udigits_nonempty fuel : forall n acc, acc <> [] \/ fuel <> 0%nat -> udigits fuel n acc <> [].
Proof.
  induction fuel as [|k IH]; intros n acc H; simpl.
  - tauto.
  - destruct (n <? 10); [discriminate|]. apply IH. left. discriminate.
Qed.

Lemma print_nonneg_ok n : 0 <= n -> print_nonneg n <> [] /\ DigitsVal 0 (print_nonneg n) n.
Proof.
  intros H. unfold print_nonneg. split; [apply udigits_nonempty; right; discriminate|].
  apply digits_val_iff. rewrite udigits_val; [reflexivity|]. split; [exact H|].
  destruct (Z.eq_dec n 0) as [->|N]; [simpl; lia|].
  rewrite Nat2Z.inj_succ, Z2Nat.id by apply Z.log2_nonneg. apply Z.log2_spec. lia.
Qed.

Lemma print_int_ok z : int32 z -> IntText (print_int z) z.
Proof.
  intros H. split; [exact H|]. unfold print_int. destruct (Z.ltb_spec z 0) as [L|L].
  - right. exists (print_nonneg (- z)). destruct (print_nonneg_ok (- z)) as [N D]; [lia|]. auto.
  - left. now apply print_nonneg_ok.
Qed.

(** ** Splitting *)
Lemma split_first_iff c s a b : split_first c s = Some (a, b) <-> s = a ++ c :: b /\ ~ In c a.
Proof.
  revert a b. induction s as [|d s IH]; intros a b; simpl.
  - split; [discriminate|]. intros [H _]. destruct a; discriminate.
  - destruct (aeq d c) eqn:E.
    + apply aeq_eq in E. subst d. split.
      * intros [= <- <-]. auto.
      * intros [H N]. destruct a as [|x a]; simpl in H; inversion H; subst; [reflexivity|].
        exfalso. apply N. now left.
    + apply aeq_neq in E. split.
      * destruct (split_first c s) as [[x y]|]; [|discriminate]. simpl. intros [= <- <-].
        destruct (proj1 (IH x y) eq_refl) as [-> N]. split; [reflexivity|]. intros [C|C]; tauto.
      * intros [H N]. destruct a as [|x a]; simpl in H; inversion H; subst; [congruence|].
        rewrite (proj2 (IH a b)); [reflexivity|]. split; [reflexivity|]. intros C. apply N. now right.
Qed.
Lemma split_first_none c s : split_first c s = None <-> ~ In c s.
Proof.
  split.
  - intros H C. apply in_split in C. 
    assert (D : exists a b, s = a ++ c :: b /\ ~ In c a).
    { clear H. induction s as [|d s IH]; [destruct C as ([|? ?] & ? & ?); discriminate|].
      destruct (ascii_dec d c) as [->|N]; [exists [], s; auto|].
      destruct C as ([|x a] & b & E); simpl in E; inversion E; subst; [congruence|].
      destruct IH as (a' & b' & E' & N'); [eauto|]. exists (x :: a'), b'. rewrite E'. split; [reflexivity|].
      intros [K|K]; tauto. }
    destruct D as (a & b & D). apply split_first_iff in D. congruence.
  - intros N. destruct (split_first c s) as [[a b]|] eqn:E; [|reflexivity].
    apply split_first_iff in E. destruct E as [-> _]. exfalso. apply N. apply in_app_iff. right. now left.
Qed.

Lemma split_last_iff c s a b : split_last c s = Some (a, b) <-> s = a ++ c :: b /\ ~ In c b.
Proof.
  assert (HN : forall s, split_last c s = None <-> ~ In c s).
  { clear. induction s as [|d s IH]; simpl; [tauto|]. destruct (split_last c s) as [[a b]|] eqn:E.
    - split; [discriminate|]. intros N. exfalso. assert (M : ~ In c s) by tauto. apply IH in M. discriminate.
    - destruct (aeq d c) eqn:D.
      + apply aeq_eq in D. split; [discriminate|]. intros N. exfalso. apply N. now left.
      + apply aeq_neq in D. split; [|reflexivity]. intros _ [K|K]; [tauto|]. apply IH in K; auto. }
  revert a b. induction s as [|d s IH]; intros a b; simpl.
  - split; [discriminate|]. intros [H _]. destruct a; discriminate.
  - destruct (split_last c s) as [[x y]|] eqn:E.
    + destruct (proj1 (IH x y) eq_refl) as [Es N]. split.
      * intros [= <- <-]. rewrite Es. auto.
      * intros [H Nb]. destruct a as [|z a]; simpl in H; inversion H; subst.
        -- exfalso. apply Nb. apply in_app_iff. right. now left.
        -- assert (K : Some (x, y) = Some (a, b)) by (apply IH; auto). now injection K as -> ->.
    + pose proof (proj1 (HN s) E) as N. destruct (aeq d c) eqn:D.
      * apply aeq_eq in D. subst d. split.
        -- intros [= <- <-]. auto.
        -- intros [H Nb]. destruct a as [|z a]; simpl in H; inversion H; subst; [reflexivity|].
           exfalso. apply N. apply in_app_iff. right. now left.
      * apply aeq_neq in D. split; [discriminate|]. intros [H Nb].
        destruct a as [|z a]; simpl in H; inversion H; subst; [congruence|].
        exfalso. apply N. apply in_app_iff. right. now left.
Qed.

(** ** parseNameAndRange *)
Lemma digits_chars a s z : DigitsVal a s z -> Forall (fun c => exists v, IsDigit c v) s.
Proof. induction 1; eauto. Qed.
Lemma int_chars s z c : IntText s z -> (forall v, ~ IsDigit c v) -> c <> "-"%char -> ~ In c s.
Proof.
  intros [_ [[_ H]|(t & _ & -> & H)]] Hc Hm C; apply digits_chars in H; rewrite Forall_forall in H.
  - destruct (H c C) as [v K]. now apply Hc in K.
  - simpl in C. destruct C as [C|C]; [congruence|]. destruct (H c C) as [v K]. now apply Hc in K.
Qed.
Lemma int_no_open s z : IntText s z -> ~ In "["%char s.
Proof. intros H. apply (int_chars _ _ _ H); [|discriminate].
  intros v [? K]. change (Z.of_nat (nat_of_ascii "[")) with 91 in K. lia. Qed.
Lemma int_no_colon s z : IntText s z -> ~ In ":"%char s.
Proof. intros H. apply (int_chars _ _ _ H); [|discriminate].
  intros v [? K]. change (Z.of_nat (nat_of_ascii ":")) with 58 in K. lia. Qed.

Lemma parse_bwd_shape path inner : ~ In "["%char inner ->
  parseNameAndRange (path ++ lit "[" ++ inner ++ lit "]") =
  (let whole := (path ++ lit "[" ++ inner ++ lit "]", None) in
   match split_first c_colon inner with
   | None => match parseInt inner with Some b => (path, Some (Range b b)) | None => whole end
   | Some (h, l) => match parseInt h, parseInt l with
                    | Some hi, Some lo => (path, Some (Range hi lo))
                    | _, _ => whole
                    end
   end).
Proof.
  intros N. unfold parseNameAndRange. set (s := path ++ lit "[" ++ inner ++ lit "]").
  assert (SL : split_last c_open s = Some (path, inner ++ lit "]")).
  { apply split_last_iff. split; [reflexivity|]. rewrite in_app_iff. intros [C|[C|[]]]; [tauto|discriminate]. }
  assert (LA : last s " "%char = "]"%char).
  { unfold s. rewrite !app_assoc. apply last_last. }
  assert (RL : removelast (inner ++ lit "]") = inner) by apply removelast_last.
  destruct s as [|x y] eqn:Es; [discriminate|]. rewrite LA, SL, RL. reflexivity.
Qed.

Lemma last_app_ne {A} (p q : list A) d x : q <> [] -> last (p ++ x :: q) d = last q d.
Proof.
  intros H. destruct (exists_last H) as (w & z & ->).
  replace (p ++ x :: w ++ [z]) with ((p ++ x :: w) ++ [z]) by now rewrite <- app_assoc.
  now rewrite !last_last.
Qed.

Lemma c25_fwd s p r : parseNameAndRange s = (p, Some r) -> RangeText s p r.
Proof.
  intros H.
  assert (D : exists path inner, s = path ++ lit "[" ++ inner ++ lit "]" /\ ~ In "["%char inner).
  { unfold parseNameAndRange in H. destruct s as [|x y] eqn:Es; [discriminate|].
    destruct (negb (aeq (last (x :: y) " "%char) c_close)) eqn:L; [discriminate|].
    apply negb_false_iff, aeq_eq in L. destruct (split_last c_open (x :: y)) as [[path tail]|] eqn:SL; [|discriminate].
    apply split_last_iff in SL. destruct SL as [E N]. rewrite E in L.
    destruct tail as [|t0 tl].
    - rewrite last_last in L. discriminate.
    - exists path, (removelast (t0 :: tl)).
      assert (T : t0 :: tl = removelast (t0 :: tl) ++ lit "]").
      { change c_close with "]"%char in L. unfold lit. simpl list_ascii_of_string. rewrite <- L.
        replace (last (path ++ c_open :: t0 :: tl) " "%char) with (last (t0 :: tl) " "%char).
        - apply app_removelast_last. discriminate.
        - symmetry. apply last_app_ne. discriminate. }
      split.
      + rewrite E, <- T. reflexivity.
      + intros C. apply N. rewrite T. apply in_app_iff. now left. }
  destruct D as (path & inner & -> & N). rewrite parse_bwd_shape in H by assumption. cbv zeta in H.
  destruct (split_first c_colon inner) as [[h l]|] eqn:SF.
  - destruct (parseInt h) as [hi|] eqn:PH; [|discriminate]. destruct (parseInt l) as [lo|] eqn:PL; [|discriminate].
    injection H as <- <-. apply parseInt_iff in PH. apply parseInt_iff in PL.
    apply split_first_iff in SF. destruct SF as [-> _]. right. exists h, l, hi, lo. repeat split; try apply PH; try apply PL.
    rewrite <- app_assoc. reflexivity.
  - destruct (parseInt inner) as [b|] eqn:P; [|discriminate]. injection H as <- <-. apply parseInt_iff in P.
    left. eauto.
Qed.

Lemma c25_bwd s p r : RangeText s p r -> parseNameAndRange s = (p, Some r).
Proof.
  intros [(t & b & -> & Ht & ->)|(h & l & a & b & -> & Hh & Hl & ->)].
  - rewrite parse_bwd_shape by (eapply int_no_open; eauto). cbv zeta.
    rewrite (proj2 (split_first_none _ _)) by (eapply int_no_colon; eauto).
    now rewrite (proj2 (parseInt_iff _ _) Ht).
  - assert (E : p ++ lit "[" ++ h ++ lit ":" ++ l ++ lit "]" = p ++ lit "[" ++ (h ++ lit ":" ++ l) ++ lit "]").
    { rewrite <- !app_assoc. reflexivity. }
    rewrite E, parse_bwd_shape.
    + cbv zeta. rewrite (proj2 (split_first_iff c_colon (h ++ lit ":" ++ l) h l)).
      * now rewrite (proj2 (parseInt_iff _ _) Hh), (proj2 (parseInt_iff _ _) Hl).
      * split; [reflexivity|]. eapply int_no_colon; eauto.
    + rewrite !in_app_iff. apply int_no_open in Hh. apply int_no_open in Hl. simpl. intuition discriminate.
Qed.

Lemma c25_whole s : (forall p r, ~ RangeText s p r) -> parseNameAndRange s = (s, None).
Proof.
  intros H. destruct (parseNameAndRange s) as [p [r|]] eqn:E.
  - exfalso. apply (H p r). now apply c25_fwd.
  - unfold parseNameAndRange in E. destruct s as [|x y]; [now injection E as <-|].
    destruct (negb _); [now injection E as <-|].
    destruct (split_last _ _) as [[a t]|]; [|now injection E as <-].
    destruct (split_first _ _) as [[h l]|].
    + destruct (parseInt h); [|now injection E as <-]. destruct (parseInt l); [discriminate|now injection E as <-].
    + destruct (parseInt _); [discriminate|now injection E as <-].
Qed.

Lemma c25_round path r : int32 (rleft r) -> int32 (rright r) ->
  parseNameAndRange (path ++ range_toString r) = (path, Some (Range (upper r) (lower r))).
Proof.
  intros H1 H2. apply c25_bwd. unfold range_toString.
  assert (I1 : int32 (lower r)) by (unfold int32, lower in *; lia).
  assert (I2 : int32 (upper r)) by (unfold int32, upper in *; lia).
  destruct (Z.eqb_spec (lower r) (upper r)) as [E|E].
  - left. exists (print_int (lower r)), (lower r). rewrite <- E. repeat split; auto; now apply print_int_ok.
  - right. exists (print_int (upper r)), (print_int (lower r)), (upper r), (lower r).
    split; [reflexivity|]. repeat split; auto; now apply print_int_ok.
Qed.

(** ** Bit ranges *)
Lemma contiguous_spec a b : int32 (upper a + 1) -> int32 (upper b + 1) ->
  exists c, isContiguousWith a b = Some c /\
    (c = true <-> forall x y z, (InRange x a \/ InRange x b) -> (InRange z a \/ InRange z b) ->
                   x <= y <= z -> InRange y a \/ InRange y b).
Proof.
  intros H1 H2. unfold isContiguousWith, add32.
  rewrite (proj2 (is_int32_iff _) H1), (proj2 (is_int32_iff _) H2).
  assert (La : lower a <= upper a) by (unfold lower, upper; lia).
  assert (Lb : lower b <= upper b) by (unfold lower, upper; lia).
  setoid_rewrite inrange_iff.
  destruct (Z.leb_spec (lower b) (upper a + 1)) as [L|L].
  - eexists. split; [reflexivity|]. rewrite Z.leb_le. split.
    + intros K x y z. lia.
    + intros K. destruct (Z_le_gt_dec (lower a) (upper b + 1)) as [G|G]; [exact G|exfalso].
      specialize (K (upper b) (upper b + 1) (lower a) ltac:(lia) ltac:(lia) ltac:(lia)). lia.
  - exists false. split; [reflexivity|]. split; [discriminate|]. intros K. exfalso.
    specialize (K (upper a) (upper a + 1) (lower b) ltac:(lia) ltac:(lia) ltac:(lia)). lia.
Qed.

Lemma union_spec a b u : unionWith a b = Some u -> forall x, InRange x u <-> InRange x a \/ InRange x b.
Proof.
  unfold unionWith. intros H x. rewrite !inrange_iff.
  destruct (isContiguousWith a b) as [[|]|] eqn:E; try discriminate. injection H as <-.
  unfold isContiguousWith, add32 in E.
  destruct (is_int32 (upper a + 1)); [|discriminate].
  destruct (Z.leb_spec (lower b) (upper a + 1)); [|discriminate].
  destruct (is_int32 (upper b + 1)); [|discriminate]. injection E as E. apply Z.leb_le in E.
  unfold lower, upper in *; simpl. lia.
Qed.
Lemma union_defined a b : unionWith a b <> None <-> isContiguousWith a b = Some true.
Proof.
  unfold unionWith. destruct (isContiguousWith a b) as [[|]|]; split; intros H; try congruence; try discriminate.
Qed.
Lemma contiguous_sym a b : int32 (upper a + 1) -> int32 (upper b + 1) ->
  isContiguousWith a b = isContiguousWith b a.
Proof.
  intros H1 H2. unfold isContiguousWith, add32.
  rewrite (proj2 (is_int32_iff _) H1), (proj2 (is_int32_iff _) H2).
  destruct (Z.leb_spec (lower b) (upper a + 1)), (Z.leb_spec (lower a) (upper b + 1)); auto.
Qed.
Lemma contiguous_overflow a b : int32 (upper a) ->
  (isContiguousWith a b = None <-> upper a = int32_max \/
                                   (upper a < int32_max /\ lower b <= upper a + 1 /\ ~ int32 (upper b + 1))).
Proof.
  intros H. unfold isContiguousWith, add32. unfold int32, int32_min, int32_max in *.
  destruct (is_int32 (upper a + 1)) eqn:E.
  - apply is_int32_iff in E. unfold int32, int32_min, int32_max in E.
    destruct (Z.leb_spec (lower b) (upper a + 1)).
    + destruct (is_int32 (upper b + 1)) eqn:F.
      * apply is_int32_iff in F. unfold int32, int32_min, int32_max in F. split; [discriminate|]. intros; lia.
      * split; [|reflexivity]. intros _. right. split; [lia|]. split; [lia|]. intros K.
        assert (G : is_int32 (upper b + 1) = true) by (apply is_int32_iff; exact K). congruence.
    + split; [discriminate|]. lia.
  - split; [|reflexivity]. intros _. left.
    destruct (Z.eq_dec (upper a) 2147483647) as [K|K]; [exact K|exfalso].
    assert (G : is_int32 (upper a + 1) = true) by (apply is_int32_iff; unfold int32, int32_min, int32_max; lia).
    congruence.
Qed.
