(** Decide: for rules with one or two symbols on the right-hand side it is decided which
    symbols derive which strings, and which symbols can follow which prefixes.  Needed
    because no axiom of excluded middle is assumed. *)
From Coq Require Import List Arith Bool Lia Relations.
From Verif Require Import Base Grammar DefaultGrammar Spec SpecFacts CrateSpec CrateFacts.
From Verif Require CrateProcessed.
Import ListNotations.

Definition dec (A : Prop) : Prop := A \/ ~ A.

Lemma dec_and : forall A B, dec A -> dec B -> dec (A /\ B).
Proof. unfold dec. tauto. Qed.
Lemma dec_or : forall A B, dec A -> dec B -> dec (A \/ B).
Proof. unfold dec. tauto. Qed.
Lemma dec_iff : forall A B, (A <-> B) -> dec A -> dec B.
Proof. unfold dec. tauto. Qed.
Lemma dec_list : forall T (P : T -> Prop) l, (forall x, In x l -> dec (P x)) -> dec (exists x, In x l /\ P x).
Proof.
  intros T P l. induction l as [|a l IH]; intros H; [right; intros (x & [] & _)|].
  destruct (H a (or_introl eq_refl)) as [Ha|Ha]; [left; exists a; simpl; auto|].
  destruct IH as [(x & Hx & Px)|No]; [intros; apply H; simpl; auto|left; exists x; simpl; auto|].
  right. intros (x & [->|Hx] & Px); [auto|]. apply No. eauto.
Qed.
Lemma dec_eq : forall a b : list nat, dec (a = b).
Proof. intros a b. destruct (list_eq_dec Nat.eq_dec a b); [now left|now right]. Qed.
Lemma dec_nat : forall a b : nat, dec (a = b).
Proof. intros a b. destruct (Nat.eq_dec a b); [now left|now right]. Qed.

(** rules with a decided property *)
Lemma dec_filter : forall T (P : T -> Prop) l, (forall x, In x l -> dec (P x)) ->
  exists l', forall x, In x l' <-> In x l /\ P x.
Proof.
  intros T P l. induction l as [|a l IH]; intros H; [exists []; simpl; tauto|].
  destruct IH as (l' & Hl); [intros; apply H; simpl; auto|].
  destruct (H a (or_introl eq_refl)) as [Ha|Ha]; [exists (a :: l')|exists l']; intros x; cbn [In]; rewrite Hl; split.
  - intros [->|[X Y]]; auto.
  - intros [[->|X] Y]; auto.
  - intros [X Y]; auto.
  - intros [[->|X] Y]; [contradiction|auto].
Qed.

(** ** Paths in a finite relation *)
Section Paths.
  Context {T : Type}.
  Variable step : T -> T -> Prop.
  Hypothesis Hdec : forall a b, dec (step a b).

  (** a path with inner points among [l] *)
  Fixpoint via (l : list T) (a b : T) : Prop :=
    match l with
    | [] => step a b
    | x :: l => via l a b \/ via l a x /\ via l x b
    end.

  Lemma via_dec : forall l a b, dec (via l a b).
  Proof. induction l as [|x l IH]; intros a b; cbn; [auto|]. apply dec_or; [auto|now apply dec_and]. Qed.

  Lemma via_sound : forall l a b, via l a b -> clos_trans T step a b.
  Proof.
    induction l as [|x l IH]; intros a b; cbn; [now apply t_step|]. intros [H|[H1 H2]]; [auto|]. eapply t_trans; eauto.
  Qed.

  Lemma via_trans : forall l a x b, In x l -> via l a x -> via l x b -> via l a b.
  Proof.
    induction l as [|y l IH]; intros a x b Hx H1 H2; [destruct Hx|]. cbn in *. destruct Hx as [->|Hx].
    - right. split; [destruct H1 as [H1|[H1 _]]; exact H1|destruct H2 as [H2|[_ H2]]; exact H2].
    - destruct H1 as [H1|[H1 H1']], H2 as [H2|[H2 H2']].
      + left. eauto.
      + right. split; [eauto|auto].
      + right. split; [auto|eauto].
      + right. auto.
  Qed.

  Lemma via_step : forall l a b, step a b -> via l a b.
  Proof. induction l as [|x l IH]; cbn; auto. Qed.

  Lemma path_dec : forall dom, (forall a b, step a b -> In b dom) -> forall a b, dec (clos_trans T step a b).
  Proof.
    intros dom Hdom a b. apply (dec_iff (via dom a b)); [|apply via_dec]. split; [apply via_sound|].
    intros H. apply clos_trans_tn1 in H. induction H as [b H|b c H _ IH]; [now apply via_step|].
    apply (via_trans dom a b); [|auto|now apply via_step].
    assert (Q : forall l a b, via l a b -> In b dom).
    { clear -Hdom. induction l as [|x l IHl]; intros a b; cbn; [apply Hdom|]. intros [H|[_ H]]; eauto. }
    exact (Q dom a b IH).
  Qed.
End Paths.

Section Decide.
  Variables (R : list prule) (n : nat).
  Hypothesis Harity : forall r, In r R -> length (p_rhs r) = 1 \/ length (p_rhs r) = 2.
  Hypothesis Hrange : forall s, used R s -> s < n.
  Notation ustep := (CrateProcessed.unary_step R).

  Lemma derives_nonempty : (forall s y, derives R s y -> y <> []) /\ (forall l y, derives_seq R l y -> l <> [] -> y <> []).
  Proof.
    apply derives_both.
    - discriminate.
    - intros r y Hr _ IH. apply IH. destruct (Harity r Hr) as [H|H]; destruct (p_rhs r); discriminate.
    - congruence.
    - intros s ss w1 w2 _ IH _ _ _ E. apply app_eq_nil in E. tauto.
  Qed.

  Lemma ustep_dec : forall a b, dec (ustep a b).
  Proof.
    intros a b. apply (dec_iff (exists r, In r R /\ (p_lhs r = a /\ p_rhs r = [b]))); [reflexivity|].
    apply dec_list. intros r _. apply dec_and; [apply dec_nat|apply dec_eq].
  Qed.

  Lemma upath_dec : forall a b, dec (clos_trans sym ustep a b).
  Proof.
    apply (path_dec ustep ustep_dec (seq 0 n)). intros a b (r & Hr & _ & Er). apply in_seq.
    assert (b < n) by (apply Hrange; exists r; rewrite Er; simpl; auto). lia.
  Qed.

  (** a token, or a rule with two symbols *)
  Definition produces (s : sym) (y : list sym) : Prop := y = [s] \/
    exists r, In r R /\ exists k, In k (seq 1 (length y - 1)) /\ (p_lhs r = s /\ exists B, In B (p_rhs r) /\ exists C, In C (p_rhs r) /\
      (p_rhs r = [B; C] /\ derives R B (firstn k y) /\ derives R C (skipn k y))).

  Lemma derives_cases : forall s y, derives R s y <-> exists s', In s' (s :: seq 0 n) /\
    ((s = s' \/ clos_trans sym ustep s s') /\ produces s' y).
  Proof.
    intros s y. split.
    - revert s y. assert (K : (forall s y, derives R s y -> exists s', (s = s' \/ clos_trans sym ustep s s') /\ produces s' y) /\
        (forall l y, derives_seq R l y -> forall s, l = [s] -> exists s', (s = s' \/ clos_trans sym ustep s s') /\ produces s' y)).
      { apply derives_both.
        - intros s. exists s. split; [auto|now left].
        - intros r y Hr Hs IH. destruct (Harity r Hr) as [H|H].
          + destruct (p_rhs r) as [|B [|]] eqn:Er; try discriminate H. destruct (IH B eq_refl) as (s' & Hp & Hs').
            exists s'. split; [|auto]. right. assert (U : ustep (p_lhs r) B) by (exists r; auto).
            destruct Hp as [<-|Hp]; [now apply t_step|]. apply (t_trans _ _ _ B); [now apply t_step|exact Hp].
          + destruct (p_rhs r) as [|B [|C [|]]] eqn:Er; try discriminate H. exists (p_lhs r). split; [auto|]. right.
            exists r. split; [auto|]. inversion Hs as [|? ? y1 y2 H1 H2 E1 E2]; subst. apply derives_seq_one in H2.
            exists (length y1). pose proof (proj1 derives_nonempty _ _ H1) as N1. pose proof (proj1 derives_nonempty _ _ H2) as N2.
            split; [apply in_seq; rewrite app_length; destruct y1, y2; cbn; try congruence; lia|]. split; [auto|].
            exists B. rewrite Er. split; [simpl; auto|]. exists C. split; [simpl; auto|]. split; [auto|].
            rewrite firstn_app, skipn_app, Nat.sub_diag, firstn_all, skipn_all. cbn [firstn skipn app]. rewrite app_nil_r. auto.
        - discriminate.
        - intros s ss w1 w2 _ IH H2 _ t E. injection E as -> ->. inversion H2; subst. rewrite app_nil_r. exact IH. }
      intros s y H. destruct (proj1 K s y H) as (s' & Hp & Hs'). exists s'. split; [|auto].
      destruct Hp as [<-|Hp]; [now left|]. right. apply in_seq. split; [lia|]. cbn. apply clos_trans_tn1 in Hp.
      destruct Hp as [? (r & Hr & _ & Er)|? ? (r & Hr & _ & Er) _]; apply Hrange; exists r; rewrite Er; simpl; auto.
    - intros (s' & _ & Hp & Hs').
      assert (Hb : derives R s' y).
      { destruct Hs' as [->|(r & Hr & k & _ & <- & B & _ & C & _ & Er & D1 & D2)]; [constructor|]. apply derives_rule; [auto|].
        rewrite Er, <- (firstn_skipn k y). constructor; [auto|]. now apply derives_seq_one. }
      destruct Hp as [->|Hp]; [auto|]. apply clos_trans_t1n in Hp. clear Hs'.
      induction Hp as [a b (r & Hr & <- & Er)|a b c (r & Hr & <- & Er) _ IH]; apply derives_rule; auto; rewrite Er; apply derives_seq_one; auto.
  Qed.

  Lemma derives_dec : forall s y, dec (derives R s y).
  Proof.
    assert (K : forall k y, length y <= k -> forall s, dec (derives R s y)).
    { induction k as [|k IH]; intros y L s.
      - right. intros H. apply (proj1 derives_nonempty) in H. destruct y; [auto|cbn in L; lia].
      - apply (dec_iff _ _ (iff_sym (derives_cases s y))). apply dec_list. intros s' _. apply dec_and.
        + apply dec_or; [apply dec_nat|apply upath_dec].
        + apply dec_or; [apply dec_eq|]. apply dec_list. intros r _. apply dec_list. intros j Hj. apply in_seq in Hj.
          apply dec_and; [apply dec_nat|]. apply dec_list. intros B _. apply dec_list. intros C _.
          apply dec_and; [apply dec_eq|]. apply dec_and; apply IH.
          * rewrite firstn_length. lia.
          * rewrite skipn_length. lia. }
    intros s y. apply (K (length y)). auto.
  Qed.

  (** ** Symbols after a prefix of the input *)
  Variable input : list sym.
  Notation L := (length input).
  Definition slice (i j : nat) : list sym := firstn (j - i) (skipn i input).

  (** a rule is entered at [i], and the dot is before the symbol at [j] *)
  Definition enters (p q : sym * nat) : Prop :=
    exists r, In r R /\ (p_lhs r = fst p /\ (snd q <= L /\ snd p <= snd q) /\ exists B, In B (p_rhs r) /\
      (nth_error (p_rhs r) 0 = Some B /\ (B = fst q /\ snd q = snd p \/ p_rhs r = [B; fst q] /\ derives R B (slice (snd p) (snd q))))).

  Lemma enters_dec : forall p q, dec (enters p q).
  Proof.
    intros [a i] [b j]. apply dec_list. intros r _. apply dec_and; [apply dec_nat|]. apply dec_and.
    { cbn. destruct (le_dec j L) as [H|H], (le_dec i j) as [K|K]; [left; auto|right; tauto..]. }
    apply dec_list. intros B _. apply dec_and.
    { destruct (nth_error (p_rhs r) 0) as [C|]; [|right; discriminate]. destruct (Nat.eq_dec C B) as [->|N]; [now left|right; congruence]. }
    apply dec_or; apply dec_and; [apply dec_nat|apply dec_nat|apply dec_eq|apply derives_dec].
  Qed.

  Definition positions : list (sym * nat) := flat_map (fun s => map (pair s) (seq 0 (S L))) (seq 0 n).

  Lemma reached_dec : forall p q, dec (clos_trans _ enters p q).
  Proof.
    apply (path_dec enters enters_dec positions). intros [a i] [b j] (r & Hr & El & (Lj & _) & B & HB & EB & H). cbn in *.
    apply in_flat_map. exists b. split; [|apply in_map_iff; exists j; split; [auto|apply in_seq; lia]].
    apply in_seq. split; [lia|]. cbn. apply Hrange. exists r. split; [auto|]. right.
    destruct H as [[-> _]|[Er _]]; [auto|]. rewrite Er. simpl. auto.
  Qed.

  (** it stands after the first [i] symbols *)
  Definition stands_after (root s : sym) (i : nat) : Prop := (s = root /\ i = 0) \/ clos_trans _ enters (root, 0) (s, i).

  Lemma stands_dec : forall root s i, dec (stands_after root s i).
  Proof. intros. apply dec_or; [apply dec_and; apply dec_nat|apply reached_dec]. Qed.

  Lemma skipn_add : forall T (l : list T) a b, skipn a (skipn b l) = skipn (a + b) l.
  Proof.
    intros T l a b. revert l. induction b as [|b IH]; intros l; [now rewrite Nat.add_0_r|]. rewrite Nat.add_succ_r.
    destruct l as [|x l]; [now rewrite !skipn_nil|]. apply IH.
  Qed.
  Lemma slice_app : forall i j k, i <= j -> j <= k -> slice i j ++ slice j k = slice i k.
  Proof.
    intros i j k H1 H2. unfold slice. replace (skipn j input) with (skipn (j - i) (skipn i input)) 
      by (rewrite skipn_add; f_equal; lia).
    rewrite <- (firstn_skipn (j - i) (firstn (k - i) (skipn i input))). rewrite firstn_firstn, Nat.min_l by lia. f_equal.
    rewrite skipn_firstn_comm. f_equal. lia.
  Qed.

  Lemma stands_sound : forall root s i, stands_after root s i -> i <= L /\ exists v, derives R root (firstn i input ++ s :: v).
  Proof.
    intros root s i [[-> ->]|H]; [split; [lia|]; exists []; constructor|].
    change s with (fst (s, i)). change i with (snd (s, i)) at 1 2.
    apply clos_trans_tn1 in H.
    assert (K : forall p q v, enters p q -> derives R root (firstn (snd p) input ++ fst p :: v) ->
       snd q <= L /\ exists v, derives R root (firstn (snd q) input ++ fst q :: v)).
    { intros [a k] [b j] v (r & Hr & El & (Lj & Lk) & B & _ & EB & H') D. cbn in *. split; [auto|].
      destruct H' as [[-> ->]|[Er DB]].
      - destruct (p_rhs r) as [|B' rest] eqn:Er; [discriminate|]. injection EB as ->. exists (rest ++ v).
        apply (derives_replace R _ _ _ _ (b :: rest) D). rewrite <- El. apply derives_rule; [auto|].
        rewrite Er. apply derives_seq_self.
      - exists v. assert (DB' : derives R a (slice k j ++ [b])).
        + rewrite <- El. apply derives_rule; [auto|]. rewrite Er. constructor; [auto|apply derives_seq_self].
        + apply (derives_replace R _ _ _ _ _ D) in DB'. clear D. rename DB' into D. rewrite <- !app_assoc in D. cbn [app] in D. rewrite app_assoc in D.
          assert (E : firstn k input ++ slice k j = firstn j input).
          { pose proof (slice_app 0 k j ltac:(lia) Lk) as E. unfold slice in E at 1 3. cbn [skipn] in E. rewrite !Nat.sub_0_r in E. exact E. }
          rewrite E in D. exact D. }
    induction H as [q H|p q H _ [_ (v & IH)]].
    - apply (K (root, 0) q []); [exact H|constructor].
    - apply (K p q v); auto.
  Qed.

  Lemma stands_step : forall root p q, enters p q -> stands_after root (fst p) (snd p) -> stands_after root (fst q) (snd q).
  Proof.
    intros root [a i] [b j] H K. cbn [fst snd] in K. right. destruct K as [[-> ->]|K]; cbn [fst snd]; [now apply t_step|]. eapply t_trans; [exact K|now apply t_step].
  Qed.

  Lemma stands_complete : forall root s i v, i <= L -> derives R root (firstn i input ++ s :: v) -> stands_after root s i.
  Proof.
    intros root s i v Li Hd.
    assert (K : (forall T x, derives R T x -> forall k u s v, x = u ++ s :: v -> k + length u <= L -> u = slice k (k + length u) ->
          stands_after root T k -> stands_after root s (k + length u)) /\
      (forall l x, derives_seq R l x -> forall r pre k u s v, In r R -> p_rhs r = pre ++ l -> length pre <= 1 ->
          (forall B, pre = [B] -> exists k0, k0 <= k /\ stands_after root (p_lhs r) k0 /\ derives R B (slice k0 k)) ->
          (pre = [] -> stands_after root (p_lhs r) k) ->
          x = u ++ s :: v -> k + length u <= L -> u = slice k (k + length u) -> stands_after root s (k + length u))).
    { apply derives_both.
      - intros T k u s' v' E Lk Eu Hs. destruct u as [|a u]; [|destruct u; discriminate]. injection E as <- _. cbn. now rewrite Nat.add_0_r.
      - intros r x Hr _ IH k u s' v' E Lk Eu Hs. refine (IH r [] k u s' v' Hr eq_refl _ _ (fun _ => Hs) E Lk Eu); [cbn; lia|discriminate].
      - intros r pre k u s' v' _ _ _ _ _ E. destruct u; discriminate.
      - intros B ss w1 w2 H1 IH1 H2 IH2 r pre k u s' v' Hr Er Lp Hp Hp0 E Lk Eu.
        (* where B stands *)
        assert (HB : stands_after root B k).
        { destruct pre as [|B0 pre].
          - apply (stands_step root (p_lhs r, k) (B, k)); [|cbn; auto]. exists r. split; [auto|]. cbn. split; [auto|]. split; [lia|].
            exists B. rewrite Er. cbn. auto.
          - destruct pre as [|]; [|cbn in Lp; lia]. destruct (Hp B0 eq_refl) as (k0 & Lk0 & Hk0 & D0).
            apply (stands_step root (p_lhs r, k0) (B, k)); [|cbn; auto]. exists r. split; [auto|]. cbn. split; [auto|]. split; [lia|].
            exists B0. rewrite Er. cbn. split; [auto|]. split; [auto|]. right. split; [|auto].
            destruct (Harity r Hr) as [A|A]; rewrite Er in A; destruct ss; cbn in A; try lia. reflexivity. }
        destruct (Nat.lt_ge_cases (length u) (length w1)) as [Lu|Lu].
        + (* inside B *)
          assert (E1 : exists v1, w1 = u ++ s' :: v1).
          { clear -E Lu. revert w1 E Lu. induction u as [|a u IH]; intros [|b w1] E Lu; cbn in *; try lia; injection E as -> E.
            - eauto.
            - destruct (IH w1 E ltac:(lia)) as (v1 & ->). eauto. }
          destruct E1 as (v1 & E1). apply (IH1 k u s' v1); auto.
        + (* after B *)
          assert (E2 : exists u2, u = w1 ++ u2 /\ w2 = u2 ++ s' :: v').
          { clear -E Lu. revert u E Lu. induction w1 as [|b w1 IH]; intros [|a u] E Lu; cbn in *; try lia; eauto. injection E as -> E.
            destruct (IH u E ltac:(lia)) as (u2 & -> & ->). eauto. }
          destruct E2 as (u2 & -> & ->). rewrite app_length in *.
          assert (Es : slice k (k + (length w1 + length u2)) = slice k (k + length w1) ++ slice (k + length w1) (k + (length w1 + length u2))).
          { symmetry. apply slice_app; lia. }
          assert (Ll : length (slice k (k + length w1)) = length w1).
          { unfold slice. rewrite firstn_length, skipn_length. lia. }
          rewrite Es in Eu. assert (E12 : w1 = slice k (k + length w1) /\ u2 = slice (k + length w1) (k + (length w1 + length u2))).
          { assert (Q : forall (a b c d : list sym), length a = length c -> a ++ b = c ++ d -> a = c /\ b = d).
            { induction a as [|x a IH]; intros b [|y c] d Hl H; try discriminate; [auto|]. injection Hl as Hl. injection H as -> H.
              destruct (IH _ _ _ Hl H) as [-> ->]. auto. }
            apply Q; auto. }
          destruct E12 as [E1 E2]. rewrite Nat.add_assoc.
          destruct ss as [|C ss]; [inversion H2; destruct u2; discriminate|].
          assert (pre = [] /\ ss = []) as [-> ->].
          { destruct (Harity r Hr) as [A|A]; rewrite Er, app_length in A; cbn in A; destruct pre, ss; cbn in A; try lia; auto. }
          refine (IH2 r [B] (k + length w1) u2 s' v' Hr Er (le_n 1) _ _ eq_refl _ _).
          * intros B' EB. injection EB as <-. exists k. split; [lia|]. split; [auto|]. now rewrite <- E1.
          * discriminate.
          * lia.
          * now rewrite <- Nat.add_assoc. }
    assert (Lf : length (firstn i input) = i) by (rewrite firstn_length; lia).
    pose proof (proj1 K root _ Hd 0 (firstn i input) s v eq_refl) as Q. rewrite Lf in Q. cbn [plus] in Q. apply Q; auto.
    - unfold slice. now rewrite Nat.sub_0_r.
    - now left.
  Qed.

  (** the symbol stands after a prefix of the input and derives what comes next *)
  Definition live (root s : sym) : Prop := exists i, In i (seq 0 (S L)) /\ exists j, In j (seq (S i) (L - i)) /\
    (stands_after root s i /\ derives R s (slice i j)).

  Lemma live_dec : forall root s, dec (live root s).
  Proof.
    intros root s. apply dec_list. intros i _. apply dec_list. intros j _. apply dec_and; [apply stands_dec|apply derives_dec].
  Qed.

  Definition live_step (root a b : sym) : Prop := ustep a b /\ live root b.

  (** if no cycle goes through such symbols, they can be ranked *)
  Lemma live_ranked : forall root, (forall s, ~ clos_trans sym (live_step root) s s) ->
    exists rank : sym -> nat, forall r s, In r R -> p_rhs r = [s] -> live root s -> rank (p_lhs r) < rank s.
  Proof.
    intros root H. destruct (dec_filter _ (fun r => exists s, In s (p_rhs r) /\ (p_rhs r = [s] /\ live root s)) R) as (R' & HR').
    { intros r _. apply dec_list. intros s _. apply dec_and; [apply dec_eq|apply live_dec]. }
    destruct (CrateProcessed.acyclic_ranked R' n) as (rank & Hrank).
    - intros s (r & Hr & Hs). apply Hrange. apply HR' in Hr. exists r. tauto.
    - intros s Hs. apply (H s). revert Hs. generalize s at 2 4. intros t Hs.
      induction Hs as [a b (r & Hr & El & Er)|a b c _ IH1 _ IH2]; [|eapply t_trans; eauto]. apply t_step.
      apply HR' in Hr. destruct Hr as (Hr & s' & _ & Er' & Hl). rewrite Er in Er'. injection Er' as <-. split; [exists r; auto|auto].
    - exists rank. intros r s Hr Er Hl. apply (Hrank r s); [|auto]. apply HR'. split; [auto|]. exists s. rewrite Er. simpl. auto.
  Qed.
End Decide.
