(** ReferenceFacts: the functions of ReferenceCrate.v keep the contract of CrateSpec.v. *)
From Coq Require Import List Arith Bool Lia Permutation Relations.
From Verif Require Import Base BaseProofs Grammar BitMatrix DefaultGrammar Spec SpecFacts CfgSpec FromGrammar CrateSpec TablesProofs RemapFacts CrateFacts GensymFacts Uniq ReferenceShape
  ReferenceCrate.
From Verif Require Check.
Import ListNotations.
Local Open Scope res_scope.

Lemma mem_In : forall s l, mem s l = true <-> In s l.
Proof.
  intros s l. unfold mem. rewrite existsb_exists. split.
  - intros (x & Hx & E). apply Nat.eqb_eq in E. now subst.
  - intros H. exists s. split; [auto|apply Nat.eqb_refl].
Qed.
Lemma mem_not_In : forall s l, mem s l = false <-> ~ In s l.
Proof. intros s l. rewrite <- not_true_iff_false, mem_In. tauto. Qed.
Lemma all_mem : forall a l, forallb (fun s => mem s l) a = true <-> (forall s, In s a -> In s l).
Proof. intros a l. rewrite forallb_forall. split; intros H s Hs; apply mem_In, H, Hs. Qed.

(** ** Closure *)
Definition closed (cls : list clause) (l : list sym) : Prop :=
  forall cl, In cl cls -> (forall s, In s (fst cl) -> In s l) -> In (snd cl) l.

Lemma saturate_in : forall n cls l s, In s l -> In s (saturate n cls l).
Proof. induction n as [|n IH]; intros cls l s H; [auto|]. apply IH, in_app_iff. auto. Qed.

Lemma saturate_sound : forall (P : sym -> Prop) cls, (forall cl, In cl cls -> (forall s, In s (fst cl) -> P s) -> P (snd cl)) ->
  forall n l, (forall s, In s l -> P s) -> forall s, In s (saturate n cls l) -> P s.
Proof.
  intros P cls HP. induction n as [|n IH]; intros l Hl s Hs; [auto|]. apply (IH _) in Hs; [auto|].
  intros t Ht. apply in_app_iff in Ht. destruct Ht as [Ht|Ht]; [|auto].
  apply in_map_iff in Ht. destruct Ht as (cl & <- & Hc). apply filter_In in Hc. destruct Hc as [Hc Hf].
  unfold fires in Hf. apply andb_true_iff in Hf. destruct Hf as [Hf _]. rewrite all_mem in Hf. auto.
Qed.

Definition open (cls : list clause) (l : list sym) : list clause := filter (fun cl => negb (mem (snd cl) l)) cls.
Lemma closed_saturate : forall n cls l, closed cls l -> closed cls (saturate n cls l).
Proof.
  induction n as [|n IH]; intros cls l H; [auto|]. cbn [saturate]. apply IH. intros cl Hc Hp.
  apply in_app_iff. right. apply H; [auto|]. intros s Hs. specialize (Hp s Hs). apply in_app_iff in Hp. destruct Hp as [Hp|Hp]; [|auto].
  exfalso. apply in_map_iff in Hp. destruct Hp as (cl' & <- & Hf). apply filter_In in Hf. destruct Hf as [Hc' Hf].
  unfold fires in Hf. apply andb_true_iff in Hf. destruct Hf as [Hf Hn]. rewrite all_mem in Hf. apply negb_true_iff, mem_not_In in Hn.
  apply Hn. exact (H cl' Hc' Hf).
Qed.
Lemma filter_length_lt : forall A (p q : A -> bool) l, (forall x, In x l -> q x = true -> p x = true) ->
  (exists x, In x l /\ p x = true /\ q x = false) -> length (filter q l) < length (filter p l).
Proof.
  intros A p q. induction l as [|x l IH]; intros H (y & Hy & Py & Qy); [destruct Hy|]. cbn [filter].
  assert (Le : length (filter q l) <= length (filter p l)).
  { clear - H. assert (H' : forall x, In x l -> q x = true -> p x = true) by (intros; apply H; simpl; auto). clear H.
    induction l as [|z l IH]; [auto|]. cbn [filter]. specialize (IH ltac:(intros; apply H'; simpl; auto)).
    pose proof (H' z (or_introl eq_refl)). destruct (q z), (p z); cbn [length]; try lia; try (exfalso; intuition congruence). }
  destruct Hy as [->|Hy].
  - rewrite Py, Qy. cbn [length]. lia.
  - specialize (IH ltac:(intros; apply H; simpl; auto) ltac:(eauto)). pose proof (H x (or_introl eq_refl)).
    destruct (q x), (p x); cbn [length]; try lia; try (exfalso; intuition congruence).
Qed.
Lemma saturate_closed : forall n cls l, length (open cls l) <= n -> closed cls (saturate n cls l).
Proof.
  induction n as [|n IH]; intros cls l Hn.
  - cbn. intros cl Hc _. destruct (mem (snd cl) l) eqn:M; [now apply mem_In|]. exfalso.
    assert (In cl (open cls l)) by (apply filter_In; rewrite M; auto). destruct (open cls l); [auto|cbn in Hn; lia].
  - destruct (filter (fires l) cls) as [|cl0 rest] eqn:Ef.
    + apply (closed_saturate (S n)). intros cl Hc Hp. destruct (mem (snd cl) l) eqn:M; [now apply mem_In|]. exfalso.
      assert (In cl (filter (fires l) cls)).
      { apply filter_In. split; [auto|]. unfold fires. rewrite M, (proj2 (all_mem _ _) Hp). reflexivity. }
      rewrite Ef in H. destruct H.
    + cbn [saturate]. apply IH. apply Nat.lt_succ_r. eapply Nat.lt_le_trans; [|exact Hn]. apply filter_length_lt.
      * intros cl _. rewrite !negb_true_iff, !mem_not_In, in_app_iff. tauto.
      * assert (In cl0 (filter (fires l) cls)) by (rewrite Ef; simpl; auto). exists cl0.
        assert (Hin := H). apply filter_In in H. destruct H as [Hc Hf]. split; [auto|]. unfold fires in Hf. apply andb_true_iff in Hf.
        split; [apply Hf|]. apply negb_false_iff, mem_In, in_app_iff. left. now apply in_map.
Qed.

Lemma closure_in : forall cls l s, In s l -> In s (closure cls l).
Proof. intros. now apply saturate_in. Qed.
Lemma closure_closed : forall cls l, closed cls (closure cls l).
Proof.
  intros. apply saturate_closed. unfold open. induction cls as [|a cls IH]; [auto|]. cbn [filter length].
  destruct (negb (mem (snd a) l)); cbn [length]; lia.
Qed.
Lemma closure_least : forall (P : sym -> Prop) cls l, (forall cl, In cl cls -> (forall s, In s (fst cl) -> P s) -> P (snd cl)) ->
  (forall s, In s l -> P s) -> forall s, In s (closure cls l) -> P s.
Proof. intros P cls l H Hl. now apply saturate_sound. Qed.

(** ** Nullable, productive and reachable symbols *)
Lemma seq_of : forall R (Q : list sym -> Prop), Q [] -> (forall a b, Q a -> Q b -> Q (a ++ b)) ->
  forall l, (forall s, In s l -> exists x, Q x /\ derives R s x) -> exists x, Q x /\ derives_seq R l x.
Proof.
  intros R Q Q0 Qa. induction l as [|s l IH]; intros H; [exists []; split; [auto|constructor]|].
  destruct (H s (or_introl eq_refl)) as (x & Qx & Dx). destruct IH as (y & Qy & Dy); [intros; apply H; simpl; auto|].
  exists (x ++ y). split; [auto|now constructor].
Qed.

Lemma nullables_spec : forall R s, In s (nullables R) <-> nullable R s.
Proof.
  intros R s. split.
  - apply (closure_least (nullable R)); [|intros t []]. intros cl Hc Hp. apply in_map_iff in Hc. destruct Hc as (r & <- & Hr). cbn [fst snd] in *.
    destruct (seq_of R (fun x => x = []) eq_refl ltac:(cbv beta; intros a b -> ->; reflexivity) (p_rhs r)) as (x & -> & Hd).
    { intros t Ht. exists []. split; [auto|exact (Hp t Ht)]. }
    now apply derives_rule.
  - assert (K : (forall s x, derives R s x -> x = [] -> In s (nullables R)) /\
      (forall a x, derives_seq R a x -> x = [] -> forall s, In s a -> In s (nullables R))).
    { apply derives_both.
      - discriminate.
      - intros r x Hr _ IH E. apply (closure_closed (rule_clauses R) [] (p_rhs r, p_lhs r)); [apply in_map_iff; eauto|]. exact (IH E).
      - intros _ t [].
      - intros t ss w1 w2 _ IH1 _ IH2 E. apply app_eq_nil in E. destruct E as [-> ->]. intros u [<-|Hu]; auto. }
    intros H. exact (proj1 K s [] H eq_refl).
Qed.

Lemma is_terminal_spec : forall R s, is_terminal R s = true <-> terminal R s.
Proof.
  intros R s. unfold is_terminal, terminal. rewrite forallb_forall. split.
  - intros H r Hr E. specialize (H r Hr). rewrite E, Nat.eqb_refl in H. discriminate.
  - intros H r Hr. apply negb_true_iff, Nat.eqb_neq. auto.
Qed.

Lemma productives_spec : forall n R s, (forall t, used R t -> t < n) -> s < n -> (In s (productives n R) <-> productive_sym R s).
Proof.
  intros n R s Hrange Hs. split.
  - apply (closure_least (productive_sym R)).
    + intros cl Hc Hp. apply in_map_iff in Hc. destruct Hc as (r & <- & Hr). cbn [fst snd] in *.
      destruct (seq_of R (Forall (terminal R)) ltac:(constructor) ltac:(intros; apply Forall_app; auto) (p_rhs r) Hp) as (x & Hx & Hd).
      exists x. split; [auto|now apply derives_rule].
    + intros t Ht. apply filter_In in Ht. destruct Ht as [_ Ht]. apply is_terminal_spec in Ht. exists [t]. split; [auto|constructor].
  - intros (x & Hx & Hd).
    assert (K : (forall s x, derives R s x -> s < n -> Forall (terminal R) x -> In s (productives n R)) /\
      (forall a x, derives_seq R a x -> (forall s, In s a -> s < n) -> Forall (terminal R) x -> forall s, In s a -> In s (productives n R))).
    { apply derives_both.
      - intros t Ht Hx'. apply closure_in, filter_In. split; [apply in_seq; lia|]. inversion Hx'; subst. now apply is_terminal_spec.
      - intros r y Hr _ IH _ Hy. apply (closure_closed (rule_clauses R) _ (p_rhs r, p_lhs r)); [apply in_map_iff; eauto|].
        apply IH; [|auto]. intros t Ht. apply Hrange. exists r. auto.
      - intros _ _ t [].
      - intros t ss w1 w2 _ IH1 _ IH2 Hr Hw. apply Forall_app in Hw. destruct Hw as [Hw1 Hw2].
        intros u [<-|Hu]; [apply IH1; [apply Hr; simpl; auto|auto]|apply IH2; auto]. intros; apply Hr; simpl; auto. }
    exact (proj1 K s x Hd Hs Hx).
Qed.

Lemma reachables_spec : forall R start s, In s (reachables R start) <-> exists u v, derives R start (u ++ s :: v).
Proof.
  intros R start s. split.
  - apply (closure_least (fun s => exists u v, derives R start (u ++ s :: v))).
    + intros cl Hc Hp. apply in_flat_map in Hc. destruct Hc as (r & Hr & Hc). apply in_map_iff in Hc. destruct Hc as (t & <- & Ht). cbn [fst snd] in *.
      destruct (Hp (p_lhs r) (or_introl eq_refl)) as (u & v & Hd). apply in_split in Ht. destruct Ht as (l1 & l2 & E).
      exists (u ++ l1), (l2 ++ v). assert (D : derives R (p_lhs r) (l1 ++ t :: l2)).
      { apply derives_rule; [auto|]. rewrite E. apply derives_seq_self. }
      pose proof (derives_replace _ _ _ _ _ _ Hd D) as K. rewrite <- !app_assoc in K. rewrite <- app_assoc. exact K.
    + intros t [<-|[]]. exists [], []. constructor.
  - intros (u & v & Hd). assert (K : (forall s x, derives R s x -> In s (reachables R start) -> forall t, In t x -> In t (reachables R start)) /\
      (forall a x, derives_seq R a x -> (forall s, In s a -> In s (reachables R start)) -> forall t, In t x -> In t (reachables R start))).
    { apply derives_both.
      - intros t Ht t' [<-|[]]. auto.
      - intros r x Hr _ IH Hl. apply IH. intros t Ht.
        apply (closure_closed (flat_map (fun r => map (fun t => ([p_lhs r], t)) (p_rhs r)) R) [start] ([p_lhs r], t)).
        + apply in_flat_map. exists r. split; [auto|]. apply in_map_iff. eauto.
        + intros t' [<-|[]]. exact Hl.
      - intros _ t [].
      - intros t ss w1 w2 _ IH1 _ IH2 Ha t' Ht'. apply in_app_iff in Ht'. destruct Ht' as [Ht'|Ht']; [apply IH1|apply IH2]; auto;
          [apply Ha; simpl; auto|intros; apply Ha; simpl; auto]. }
    apply (proj1 K _ _ Hd); [apply closure_in; simpl; auto|]. apply in_app_iff. simpl. auto.
Qed.

(** ** make_proper and wrap_input *)
Lemma ref_proper : forall U start, user_grammar U start -> made_proper start U (ref_make_proper U).
Proof.
  intros U start HU. assert (Er : root_of U = start) by (unfold root_of; now rewrite (ug_roots _ _ HU)).
  split; [unfold ref_make_proper; cbn [c_rules]; eauto| |reflexivity]. intros r. unfold ref_make_proper. cbn [c_rules].
  rewrite filter_In, andb_true_iff, mem_In, all_mem, Er, reachables_spec. unfold useful. split.
  - intros (Hr & Hq & Hp). split; [auto|]. split; [auto|]. intros s Hs. apply (productives_spec (c_num_syms U)); [apply (ug_range _ _ HU)| |auto].
    apply (ug_range _ _ HU). exists r. auto.
  - intros (Hr & Hq & Hp). split; [auto|]. split; [auto|]. intros s Hs. apply productives_spec; [apply (ug_range _ _ HU)| |auto].
    apply (ug_range _ _ HU). exists r. auto.
Qed.

Definition ref_w (c : pcfg) : wrapped_root := mkWrapped (c_num_syms c) (c_num_syms c + 1) (c_num_syms c + 2) (root_of c).
Lemma ref_wrap : forall U start, c_roots U = [start] -> wrapped start U (ref_wrap_input U) (ref_w U).
Proof.
  intros U start Er. unfold ref_wrap_input, ref_w, root_of. rewrite Er. cbn [nth]. split; cbn [c_rules c_num_syms c_roots c_wrapped w_root w_sof w_eof w_inner]; try reflexivity.
  - eexists (c_rules U), [], _. split; [now rewrite app_nil_r|]. split; [reflexivity|]. auto.
  - repeat constructor; lia.
  - repeat constructor; cbn; intuition lia.
Qed.

(** ** Binarisation *)
Lemma cut_cons2 : forall next pre a b c t, cut next pre a (b :: c :: t) =
  (let '(gens, rhs) := cut (S next) (pre ++ [b]) next (c :: t) in
   ((mkRule next [a; b] None None [], pre ++ [b]) :: gens, rhs)).
Proof. reflexivity. Qed.

Definition cut_gen (next a : sym) (pre l : list sym) (n i : nat) (g : prule * list sym) : Prop :=
  p_lhs (fst g) = next + i /\ p_origin (fst g) = None /\ 2 <= length (snd g) /\
  (exists suf, suf <> [] /\ pre ++ l = snd g ++ suf) /\
  exists x y, p_rhs (fst g) = [x; y] /\ In y l /\ (x = a \/ next <= x < next + n).
Lemma cut_spec : forall l next pre a gens rhs, cut next pre a l = (gens, rhs) -> pre <> [] ->
  length gens = length l - 1 /\
  (forall i g, nth_error gens i = Some g -> cut_gen next a pre l (length gens) i g) /\
  (l = [] -> rhs = [a]) /\
  (l <> [] -> exists x y, rhs = [x; y] /\ In y l /\ (x = a \/ next <= x < next + length gens)) /\
  (forall M, M a = pre -> (forall x, In x l -> M x = [x]) -> (forall i g, nth_error gens i = Some g -> M (next + i) = snd g) ->
     flat_map M rhs = pre ++ l /\ forall i g, nth_error gens i = Some g -> flat_map M (p_rhs (fst g)) = snd g).
Proof.
  induction l as [|b t IH]; intros next pre a gens rhs H Hp.
  - injection H as <- <-. split; [reflexivity|]. split; [intros [|i] g E; discriminate|]. split; [auto|]. split; [congruence|].
    intros M Ha _ _. cbn. rewrite Ha. split; [auto|]. intros [|i] g E; discriminate.
  - destruct t as [|c t].
    + injection H as <- <-. split; [reflexivity|]. split; [intros [|i] g E; discriminate|]. split; [discriminate|].
      split; [intros _; exists a, b; cbn; auto|]. intros M Ha Hl _. cbn. rewrite Ha, (Hl b) by (simpl; auto). split; [now rewrite ?app_nil_r|].
      intros [|i] g E; discriminate.
    + rewrite cut_cons2 in H. destruct (cut (S next) (pre ++ [b]) next (c :: t)) as [gs rh] eqn:Ec. injection H as <- <-.
      assert (Hp' : pre ++ [b] <> []) by (destruct pre; discriminate).
      destruct (IH _ _ _ _ _ Ec Hp') as (L & G & _ & Hr & F). specialize (Hr ltac:(discriminate)). destruct Hr as (x & y & -> & Hy & Hx).
      cbn [length] in L |- *. split; [lia|]. split; [|split; [discriminate|split]].
      * intros [|i] g E.
        -- injection E as <-. unfold cut_gen. cbn [fst snd p_lhs p_origin p_rhs]. split; [lia|]. split; [auto|]. split.
           { rewrite app_length. cbn. destruct pre; [congruence|cbn; lia]. }
           split; [exists (c :: t); split; [discriminate|now rewrite <- app_assoc]|]. exists a, b. cbn. auto.
        -- cbn in E. destruct (G i g E) as (G1 & G2 & G3 & (suf & G4 & G5) & x' & y' & G6 & G7 & G8). unfold cut_gen. split; [lia|].
           split; [auto|]. split; [auto|]. split; [exists suf; split; [auto|]; rewrite <- G5, <- app_assoc; reflexivity|].
           exists x', y'. split; [auto|]. split; [simpl in *; auto|lia].
      * intros _. exists x, y. split; [auto|]. split; [simpl in *; auto|lia].
      * intros M Ha Hl Hg. destruct (F M) as [F1 F2].
        -- specialize (Hg 0 _ eq_refl). cbn in Hg. now rewrite Nat.add_0_r in Hg.
        -- intros z Hz. apply Hl. simpl in *; auto.
        -- intros i g E. replace (S next + i) with (next + S i) by lia. apply (Hg (S i)). exact E.
        -- split; [rewrite F1, <- app_assoc; reflexivity|]. intros [|i] g E; [injection E as <-|exact (F2 i g E)].
           cbn. rewrite Ha, (Hl b) by (simpl; auto). reflexivity.
Qed.

Definition uses (s : sym) (r : prule) : bool := mem s (p_rhs r).
Lemma mem_two : forall s x y, s <> y -> mem s [x; y] = (x =? s).
Proof.
  intros s x y H. unfold mem. cbn [existsb]. rewrite orb_false_r, (Nat.eqb_sym s x). apply Nat.eqb_neq in H. now rewrite H, orb_false_r.
Qed.
Lemma count_cons : forall p r l, count p (r :: l) = Nat.b2n (p r) + count p l.
Proof. intros p r l. unfold count. cbn [filter]. destruct (p r); reflexivity. Qed.
Lemma count_app : forall p l l', count p (l ++ l') = count p l + count p l'.
Proof. intros. unfold count. now rewrite filter_app, app_length. Qed.
Lemma cut_count : forall l next pre a gens rhs s, cut next pre a l = (gens, rhs) -> a < next -> ~ In s l ->
  count (uses s) (map fst gens) + Nat.b2n (mem s rhs) = Nat.b2n (a =? s) + Nat.b2n ((next <=? s) && (s <? next + length gens)).
Proof.
  induction l as [|b t IH]; intros next pre a gens rhs s H Ha Hs.
  - injection H as <- <-. cbn [map count filter length app uses]. unfold mem. cbn [existsb]. rewrite orb_false_r, (Nat.eqb_sym s a).
    destruct (a =? s), (Nat.leb_spec next s), (Nat.ltb_spec s (next + 0)); cbn; lia.
  - destruct t as [|c t].
    + injection H as <- <-. rewrite mem_two by (intros ->; apply Hs; simpl; auto). cbn [map length].
      destruct (a =? s), (Nat.leb_spec next s), (Nat.ltb_spec s (next + 0)); cbn; lia.
    + rewrite cut_cons2 in H. destruct (cut (S next) (pre ++ [b]) next (c :: t)) as [gs rh] eqn:Ec. injection H as <- <-.
      cbn [map fst]. rewrite count_cons. unfold uses at 1. cbn [p_rhs]. rewrite mem_two by (intros ->; apply Hs; simpl; auto).
      rewrite <- Nat.add_assoc. rewrite (IH _ _ _ _ _ s Ec) by (auto; intros K; apply Hs; simpl in *; auto). cbn [length].
      f_equal. destruct (Nat.eqb_spec next s), (Nat.leb_spec next s), (Nat.leb_spec (S next) s), (Nat.ltb_spec s (next + S (length gs))),
        (Nat.ltb_spec s (S next + length gs)); cbn; lia.
Qed.

(** what [cut_rules] does to the rules of a grammar with [n] symbols *)
Definition head_ok (next k : nat) (M : sym -> list sym) (r r' : prule) : Prop :=
  p_lhs r' = p_lhs r /\ p_origin r' = p_origin r /\ flat_map M (p_rhs r') = p_rhs r /\ length (p_rhs r') <= 2 /\
  (forall s, In s (p_rhs r') -> In s (p_rhs r) \/ next <= s < next + k) /\
  (forall s, nth_error (p_rhs r') 1 = Some s -> In s (p_rhs r)) /\
  (forall s, next <= s -> In s (p_rhs r') -> exists y, p_rhs r' = [s; y]).
Definition gen_ok (R : list prule) (next k : nat) (M : sym -> list sym) (i : nat) (g : prule * list sym) : Prop :=
  p_lhs (fst g) = next + i /\ p_origin (fst g) = None /\ 2 <= length (snd g) /\
  flat_map M (p_rhs (fst g)) = snd g /\
  exists r, In r R /\ (exists suf, suf <> [] /\ p_rhs r = snd g ++ suf) /\
    exists x y, p_rhs (fst g) = [x; y] /\ In y (p_rhs r) /\ (In x (p_rhs r) \/ next <= x < next + k).

Lemma cut_rhs_spec : forall next rhs0 gens rhs, cut_rhs next rhs0 = (gens, rhs) -> (forall s, In s rhs0 -> s < next) ->
  (forall M, (forall x, In x rhs0 -> M x = [x]) -> (forall i g, nth_error gens i = Some g -> M (next + i) = snd g) ->
    flat_map M rhs = rhs0 /\ forall i g, nth_error gens i = Some g -> flat_map M (p_rhs (fst g)) = snd g) /\
  length rhs <= 2 /\
  (forall s, In s rhs -> In s rhs0 \/ next <= s < next + length gens) /\
  (forall s, nth_error rhs 1 = Some s -> In s rhs0) /\
  (forall s, next <= s -> In s rhs -> exists y, rhs = [s; y]) /\
  (forall i g, nth_error gens i = Some g -> p_lhs (fst g) = next + i /\ p_origin (fst g) = None /\ 2 <= length (snd g) /\
     (exists suf, suf <> [] /\ rhs0 = snd g ++ suf) /\
     exists x y, p_rhs (fst g) = [x; y] /\ In y rhs0 /\ (In x rhs0 \/ next <= x < next + length gens)) /\
  (forall s, next <= s -> count (uses s) (map fst gens) + Nat.b2n (mem s rhs) = Nat.b2n (s <? next + length gens)).
Proof.
  intros next [|a l] gens rhs H Hlt; cbn [cut_rhs] in H.
  - injection H as <- <-. split; [intros; split; [reflexivity|intros [|i] g E; discriminate]|]. split; [cbn; lia|]. split; [intros s []|].
    split; [discriminate|]. split; [intros s _ []|]. split; [intros [|i] g E; discriminate|]. intros s Hs.
    rewrite (proj2 (Nat.ltb_ge s (next + length (@nil (prule * list sym))))) by (cbn; lia). reflexivity.
  - destruct (cut_spec _ _ _ _ _ _ H ltac:(discriminate)) as (L & G & R0 & R1 & F). split; [|split; [|split; [|split; [|split; [|split]]]]].
    + intros M Hx Hg. apply (F M); [apply Hx; simpl; auto|intros; apply Hx; simpl; auto|auto].
    + destruct l; [rewrite R0 by auto; cbn; lia|]. destruct R1 as (x & y & -> & _); [discriminate|]. cbn. lia.
    + intros s Hs. destruct l as [|b l]; [rewrite R0 in Hs by auto; left; simpl in *; tauto|]. destruct R1 as (x & y & -> & Hy & Hx); [discriminate|].
      destruct Hs as [<-|[<-|[]]]; [|left; simpl in *; auto]. destruct Hx as [->|Hx]; [left; simpl; auto|auto].
    + intros s Hs. destruct l as [|b l]; [rewrite R0 in Hs by auto; discriminate|]. destruct R1 as (x & y & -> & Hy & Hx); [discriminate|].
      injection Hs as <-. simpl in *; auto.
    + intros s Hs Hin. destruct l as [|b l]; [rewrite R0 in Hin by auto; destruct Hin as [<-|[]]; specialize (Hlt a ltac:(simpl; auto)); lia|].
      destruct R1 as (x & y & -> & Hy & Hx); [discriminate|]. destruct Hin as [<-|[<-|[]]]; [eauto|].
      specialize (Hlt y ltac:(simpl in *; auto)). lia.
    + intros i g E. destruct (G i g E) as (G1 & G2 & G3 & (suf & G4 & G5) & x & y & G6 & G7 & G8). split; [auto|]. split; [auto|]. split; [auto|].
      split; [exists suf; auto|]. exists x, y. split; [auto|]. split; [simpl; auto|]. destruct G8 as [->|G8]; [left; simpl; auto|auto].
    + intros s Hs. rewrite (cut_count _ _ _ _ _ _ s H); [|apply Hlt; simpl; auto|intros K; specialize (Hlt s ltac:(simpl; auto)); lia].
      assert (a < next) by (apply Hlt; simpl; auto). rewrite (proj2 (Nat.eqb_neq a s)) by lia. rewrite (proj2 (Nat.leb_le next s)) by lia. reflexivity.
Qed.

Lemma cut_rules_spec : forall n R next heads gens, cut_rules next R = (heads, gens) -> n <= next ->
  (forall r s, In r R -> In s (p_rhs r) -> s < n) ->
  length heads = length R /\
  (forall M, (forall x, x < n -> M x = [x]) -> (forall i g, nth_error gens i = Some g -> M (next + i) = snd g) ->
     (forall d r, nth_error R d = Some r -> exists r', nth_error heads d = Some r' /\ head_ok next (length gens) M r r') /\
     (forall i g, nth_error gens i = Some g -> gen_ok R next (length gens) M i g)) /\
  (forall s, next <= s -> count (uses s) heads + count (uses s) (map fst gens) = Nat.b2n (s <? next + length gens)).
Proof.
  intros n. induction R as [|r R IH]; intros next heads gens H Hn Hr; cbn [cut_rules] in H.
  - injection H as <- <-. split; [reflexivity|]. split.
    + intros M _ _. split; [intros [|d] q E; discriminate|intros [|i] g E; discriminate].
    + intros s Hs. rewrite (proj2 (Nat.ltb_ge s (next + length (@nil (prule * list sym))))) by (cbn; lia). reflexivity.
  - destruct (cut_rhs next (p_rhs r)) as [gs rh] eqn:Ec. destruct (cut_rules (next + length gs) R) as [hs rest] eqn:Er. injection H as <- <-.
    assert (Hlt : forall s, In s (p_rhs r) -> s < next) by (intros s Hs; specialize (Hr r s ltac:(simpl; auto) Hs); lia).
    destruct (cut_rhs_spec _ _ _ _ Ec Hlt) as (C1 & C2 & C3 & C4 & C5 & C6 & C7).
    destruct (IH _ _ _ Er ltac:(lia) ltac:(intros; eapply Hr; simpl; eauto)) as (I1 & I2 & I3). split; [cbn; lia|]. split.
    + intros M HM Hg. destruct (C1 M) as [D1 D2].
      { intros x Hx. apply HM. apply (Hr r); [simpl; auto|auto]. }
      { intros i g E. apply Hg. rewrite nth_error_app1; [auto|]. apply nth_error_Some. congruence. }
      destruct (I2 M HM) as [J1 J2].
      { intros i g E. replace (next + length gs + i) with (next + (length gs + i)) by lia. apply Hg. rewrite nth_error_app2 by lia.
        now replace (length gs + i - length gs) with i by lia. }
      rewrite app_length. split.
      * intros [|d] q E.
        -- injection E as <-. eexists. split; [reflexivity|]. unfold head_ok. cbn [p_lhs p_rhs p_origin]. repeat (split; [solve [auto]|]). split; [|auto].
           intros s Hs. destruct (C3 s Hs); [auto|right; lia].
        -- cbn in E. destruct (J1 d q E) as (r' & Hd & K1 & K2 & K3 & K4 & K5 & K6 & K7). exists r'. split; [exact Hd|].
           unfold head_ok. repeat (split; [solve [auto]|]). split; [|split; [auto|]].
           ++ intros s Hs. destruct (K5 s Hs); [auto|right; lia].
           ++ intros s Hs Hin. destruct (K5 s Hin) as [A|A]; [|apply K7; auto; lia].
              specialize (Hr q s ltac:(simpl; right; eapply nth_error_In; eauto) A). lia.
      * intros i g E. destruct (Nat.lt_ge_cases i (length gs)) as [Li|Li].
        -- rewrite nth_error_app1 in E by auto. destruct (C6 i g E) as (G1 & G2 & G3 & G4 & x & y & G6 & G7 & G8).
           unfold gen_ok. split; [auto|]. split; [auto|]. split; [auto|]. split; [exact (D2 i g E)|]. exists r. split; [simpl; auto|]. split; [auto|].
           exists x, y. split; [auto|]. split; [auto|]. destruct G8; [auto|right; lia].
        -- rewrite nth_error_app2 in E by auto. destruct (J2 _ g E) as (G1 & G2 & G3 & G4 & q & Gq & G5 & x & y & G6 & G7 & G8).
           unfold gen_ok. split; [lia|]. split; [auto|]. split; [auto|]. split; [auto|]. exists q. split; [simpl; auto|]. split; [auto|].
           exists x, y. split; [auto|]. split; [auto|]. destruct G8; [auto|right; lia].
    + intros s Hs. rewrite count_cons, map_app, count_app. unfold uses at 1. cbn [p_rhs]. specialize (C7 s Hs). rewrite app_length.
      destruct (Nat.lt_ge_cases s (next + length gs)) as [Ls|Ls].
      * (* the later rules do not use it *)
        assert (Z1 : count (uses s) hs = 0 /\ count (uses s) (map fst rest) = 0).
        { assert (NU : forall q, uses s q = true -> In s (p_rhs q)) by (intros q; apply mem_In).
          assert (MM : exists M : sym -> list sym, (forall x, x < n -> M x = [x]) /\ (forall i g, nth_error rest i = Some g -> M (next + length gs + i) = snd g)).
          { exists (fun x => if x <? n then [x] else match nth_error rest (x - (next + length gs)) with Some g => snd g | None => [] end). split.
            - intros x Hx. apply Nat.ltb_lt in Hx. now rewrite Hx.
            - intros i g E. rewrite (proj2 (Nat.ltb_ge _ _)) by lia. replace (next + length gs + i - (next + length gs)) with i by lia. now rewrite E. }
          destruct MM as (M & M1 & M2). destruct (I2 M M1 M2) as [J1 J2]. unfold count. split; apply length_zero_iff_nil.
          - destruct (filter (uses s) hs) as [|q l] eqn:Ef; [auto|exfalso]. assert (Hq : In q (filter (uses s) hs)) by (rewrite Ef; simpl; auto).
            apply filter_In in Hq. destruct Hq as [Hq Hu]. apply NU in Hu. apply In_nth_error in Hq. destruct Hq as (d & Hd).
            destruct (nth_error R d) as [q0|] eqn:E0; [|apply nth_error_None in E0; assert (d < length hs) by (apply nth_error_Some; congruence); lia].
            destruct (J1 d q0 E0) as (q' & Hd' & _ & _ & _ & _ & K5 & _). rewrite Hd in Hd'. injection Hd' as <-.
            destruct (K5 s Hu) as [A|A]; [|lia]. specialize (Hr q0 s ltac:(simpl; right; eapply nth_error_In; eauto) A). lia.
          - destruct (filter (uses s) (map fst rest)) as [|q l] eqn:Ef; [auto|exfalso]. assert (Hq : In q (filter (uses s) (map fst rest))) by (rewrite Ef; simpl; auto).
            apply filter_In in Hq. destruct Hq as [Hq Hu]. apply NU in Hu. apply in_map_iff in Hq. destruct Hq as (g & <- & Hg). apply In_nth_error in Hg.
            destruct Hg as (i & Hi). destruct (J2 i g Hi) as (_ & _ & _ & _ & q0 & Hq0 & _ & x & y & E & Hy & Hx). rewrite E in Hu.
            assert (Hr' : forall z, In z (p_rhs q0) -> z < n) by (intros z Hz; apply (Hr q0); simpl; auto).
            destruct Hu as [<-|[<-|[]]]; [destruct Hx as [Hx|Hx]; [specialize (Hr' _ Hx); lia|lia]|specialize (Hr' _ Hy); lia]. }
        destruct Z1 as [-> ->]. rewrite (proj2 (Nat.ltb_lt s (next + (length gs + length rest)))) by lia.
        rewrite (proj2 (Nat.ltb_lt s (next + length gs))) in C7 by lia. cbn in C7 |- *. lia.
      * specialize (I3 s Ls). rewrite (proj2 (Nat.ltb_ge s (next + length gs))) in C7 by lia.
        replace (next + (length gs + length rest)) with (next + length gs + length rest) by lia. cbn [Nat.b2n] in C7. lia.
Qed.

Section Binarize.
  Variable W : pcfg.
  Hypothesis Hrange : forall s, used (c_rules W) s -> s < c_num_syms W.
  Notation n := (c_num_syms W).
  Notation heads := (fst (cut_rules n (c_rules W))).
  Notation gens := (snd (cut_rules n (c_rules W))).
  Notation M := (meaning W).

  Lemma bin_rules : c_rules (binarize W) = heads ++ map fst gens.
  Proof. unfold binarize. destruct (cut_rules n (c_rules W)). reflexivity. Qed.
  Lemma bin_syms : c_num_syms (binarize W) = n + length gens.
  Proof. unfold binarize. destruct (cut_rules n (c_rules W)). reflexivity. Qed.

  Lemma meaning_old : forall x, x < n -> M x = [x].
  Proof. intros x H. unfold meaning. apply Nat.ltb_lt in H. now rewrite H. Qed.
  Lemma meaning_gen : forall i g, nth_error gens i = Some g -> M (n + i) = snd g.
  Proof. intros i g E. unfold meaning. rewrite (proj2 (Nat.ltb_ge _ _)) by lia. replace (n + i - n) with i by lia. now rewrite E. Qed.

  Lemma cut_all : length heads = length (c_rules W) /\
    (forall d r, nth_error (c_rules W) d = Some r -> exists r', nth_error heads d = Some r' /\ head_ok n (length gens) M r r') /\
    (forall i g, nth_error gens i = Some g -> gen_ok (c_rules W) n (length gens) M i g) /\
    (forall s, n <= s -> count (uses s) (c_rules (binarize W)) = Nat.b2n (s <? c_num_syms (binarize W))).
  Proof.
    destruct (cut_rules_spec n (c_rules W) n heads gens) as (A & B & C).
    - destruct (cut_rules n (c_rules W)); reflexivity.
    - auto.
    - intros r s Hr Hs. apply Hrange. exists r. auto.
    - destruct (B M meaning_old meaning_gen) as [B1 B2]. split; [auto|]. split; [auto|]. split; [auto|].
      intros s Hs. rewrite bin_rules, bin_syms, count_app. auto.
  Qed.
  Lemma head_inv : forall d r', nth_error heads d = Some r' -> exists r, nth_error (c_rules W) d = Some r /\ head_ok n (length gens) M r r'.
  Proof.
    intros d r' Hd. destruct cut_all as (L & H & _). destruct (nth_error (c_rules W) d) as [r|] eqn:E.
    - exists r. split; [auto|]. destruct (H d r E) as (q & Hq & K). rewrite Hd in Hq. injection Hq as <-. exact K.
    - apply nth_error_None in E. assert (d < length heads) by (apply nth_error_Some; congruence). lia.
  Qed.
  Lemma lhs_old : forall d r, nth_error (c_rules W) d = Some r -> p_lhs r < n.
  Proof. intros d r H. apply Hrange. exists r. split; [eapply nth_error_In; eauto|auto]. Qed.
  Lemma rhs_old : forall r s, In r (c_rules W) -> In s (p_rhs r) -> s < n.
  Proof. intros r s H Hs. apply Hrange. exists r. auto. Qed.

  (** a rule of the result is a head or the rule of a generated symbol *)
  Lemma bin_cases : forall b r', nth_error (c_rules (binarize W)) b = Some r' ->
    (exists r, nth_error (c_rules W) b = Some r /\ head_ok n (length gens) M r r' /\ p_lhs r' < n) \/
    (exists i g, b = length (c_rules W) + i /\ nth_error gens i = Some g /\ r' = fst g /\ gen_ok (c_rules W) n (length gens) M i g).
  Proof.
    intros b r' Hb. rewrite bin_rules in Hb. destruct cut_all as (L & _ & G & _). destruct (Nat.lt_ge_cases b (length heads)) as [Lb|Lb].
    - rewrite nth_error_app1 in Hb by auto. left. destruct (head_inv b r' Hb) as (r & Hr & K). exists r. split; [auto|]. split; [auto|].
      destruct K as (-> & _). eapply lhs_old; eauto.
    - rewrite nth_error_app2 in Hb by auto. right. rewrite nth_error_map in Hb. destruct (nth_error gens (b - length heads)) as [g|] eqn:E; [|discriminate].
      injection Hb as <-. exists (b - length heads), g. split; [lia|]. auto.
  Qed.

  Lemma ref_binarized : binarized W (binarize W) M (fun d => d).
  Proof.
    destruct cut_all as (L & H & G & C). split.
    - rewrite bin_syms. lia.
    - intros s (r & Hr & Hs). rewrite bin_syms. apply In_nth_error in Hr. destruct Hr as (b & Hb).
      destruct (bin_cases b r Hb) as [(q & Hq & (K1 & _ & _ & _ & K5 & _) & Hl)|(i & g & _ & Hi & -> & (G1 & _ & _ & _ & q & Hq & _ & x & y & E & Hy & Hx))].
      + destruct Hs as [<-|Hs]; [lia|]. destruct (K5 s Hs) as [A|A]; [|lia]. apply nth_error_In in Hq. pose proof (rhs_old q s Hq A). lia.
      + assert (i < length gens) by (apply nth_error_Some; congruence). destruct Hs as [<-|Hs]; [lia|]. rewrite E in Hs.
        destruct Hs as [<-|[<-|[]]]; [destruct Hx as [Hx|Hx]; [pose proof (rhs_old q _ Hq Hx)|]; lia|pose proof (rhs_old q _ Hq Hy); lia].
    - exact meaning_old.
    - intros s Hs. unfold meaning. rewrite (proj2 (Nat.ltb_ge _ _)) by lia. destruct (nth_error gens (s - n)) as [g|] eqn:E; [|cbn; lia].
      apply (G _ _ E).
    - intros d r Hd. destruct (H d r Hd) as (r' & Hr' & K1 & K2 & K3 & _). exists r'. split; [|auto].
      rewrite bin_rules, nth_error_app1; [auto|]. apply nth_error_Some. congruence.
    - intros b r' Hb Hl. exists b. split; [|auto]. destruct (bin_cases b r' Hb) as [(r & Hr & _)|(i & g & -> & Hi & -> & (G1 & _))].
      + apply nth_error_Some. congruence.
      + lia.
    - auto.
    - intros r Hr Hl. apply In_nth_error in Hr. destruct Hr as (b & Hb).
      destruct (bin_cases b r Hb) as [(q & Hq & _ & Hlt)|(i & g & _ & Hi & -> & (G1 & G2 & _ & G4 & q & _ & _ & x & y & E & _))]; [lia|].
      split; [auto|]. split; [now rewrite E|]. rewrite G4, G1. symmetry. now apply meaning_gen.
    - intros g G1 G2. rewrite bin_syms in G2. destruct (nth_error gens (g - n)) as [e|] eqn:E; [|apply nth_error_None in E; lia].
      exists (length (c_rules W) + (g - n)), (fst e). split; [|split].
      + rewrite bin_rules, nth_error_app2 by lia. rewrite L. replace (length (c_rules W) + (g - n) - length (c_rules W)) with (g - n) by lia.
        now rewrite nth_error_map, E.
      + destruct (G _ _ E) as (K & _). lia.
      + intros b' r' Hb' El. destruct (bin_cases b' r' Hb') as [(q & Hq & _ & Hlt)|(i & e' & -> & Hi & -> & (K & _))]; lia.
    - intros g G1 G2. specialize (C g G1). rewrite (proj2 (Nat.ltb_lt _ _) G2) in C. cbn [Nat.b2n] in C. apply count_one in C.
      destruct C as (b & r & Hb & Hu & Ho). apply mem_In in Hu.
      assert (Y : exists y, p_rhs r = [g; y]).
      { destruct (bin_cases b r Hb) as [(q & Hq & (_ & _ & _ & _ & _ & _ & K7) & _)|(i & e & _ & Hi & -> & (_ & _ & _ & _ & q & Hq & _ & x & y & E & Hy & Hx))].
        - now apply K7.
        - rewrite E in Hu. destruct Hu as [<-|[<-|[]]]; [eauto|]. pose proof (rhs_old q _ Hq Hy). lia. }
      destruct Y as (y & Er). exists b, r, y. split; [auto|]. split; [auto|]. intros b' r' Hb' Hin. eapply Ho; eauto. now apply mem_In.
    - intros r s Hr Hs. apply In_nth_error in Hr. destruct Hr as (b & Hb).
      destruct (bin_cases b r Hb) as [(q & Hq & (_ & _ & _ & _ & _ & K6 & _) & _)|(i & e & _ & Hi & -> & (_ & _ & _ & _ & q & Hq & _ & x & y & E & Hy & Hx))].
      + apply (rhs_old q); [eapply nth_error_In; eauto|now apply K6].
      + rewrite E in Hs. injection Hs as <-. exact (rhs_old q _ Hq Hy).
    - intros r Hr. apply In_nth_error in Hr. destruct Hr as (b & Hb).
      destruct (bin_cases b r Hb) as [(q & Hq & (_ & _ & _ & K4 & _) & _)|(i & e & _ & Hi & -> & (_ & _ & _ & _ & q & Hq & _ & x & y & E & _))]; [auto|].
      rewrite E. cbn. lia.
    - unfold binarize. destruct (cut_rules n (c_rules W)). reflexivity.
    - unfold binarize. destruct (cut_rules n (c_rules W)). reflexivity.
  Qed.

  (** what a generated symbol stands for is the beginning of a longer right-hand side *)
  Lemma gen_prefix : forall g, n <= g -> g < c_num_syms (binarize W) -> exists r suf, In r (c_rules W) /\ suf <> [] /\ p_rhs r = M g ++ suf.
  Proof.
    intros g G1 G2. rewrite bin_syms in G2. destruct cut_all as (_ & _ & G & _). destruct (nth_error gens (g - n)) as [e|] eqn:E; [|apply nth_error_None in E; lia].
    destruct (G _ _ E) as (_ & _ & _ & _ & r & Hr & (suf & Hs & Er) & _). exists r, suf. split; [auto|]. split; [auto|]. rewrite Er. f_equal.
    replace g with (n + (g - n)) by lia. symmetry. now apply meaning_gen.
  Qed.
End Binarize.

(** ** Elimination *)
Lemma keep_left : forall mask l, keep mask l = left_over mask l.
Proof. reflexivity. Qed.
Lemma masks_spec : forall n mask, In mask (masks n) <-> length mask = n.
Proof.
  induction n as [|n IH]; intros mask; cbn [masks].
  - split; [intros [<-|[]]; reflexivity|]. destruct mask; [cbn; auto|discriminate].
  - rewrite in_app_iff, !in_map_iff. split.
    + intros [(k & <- & H)|(k & <- & H)]; apply IH in H; cbn; lia.
    + destruct mask as [|[] mask]; intros H; try discriminate; injection H as H; apply IH in H; eauto.
Qed.
Lemma masks_nodup : forall n, NoDup (masks n).
Proof.
  assert (K : forall (b : bool) l, NoDup l -> NoDup (map (cons b) l)).
  { intros b l H. apply FinFun.Injective_map_NoDup; [|auto]. intros x y E. now injection E. }
  induction n as [|n IH]; cbn [masks]; [repeat constructor; auto|]. apply NoDup_app_iff. split; [auto|]. split; [auto|].
  intros x H1 H2. apply in_map_iff in H1. apply in_map_iff in H2. destruct H1 as (a & <- & _), H2 as (b & E & _). discriminate.
Qed.

Lemma in_numbered : forall A (R : list A) k b r, In (b, r) (combine (seq k (length R)) R) <-> k <= b /\ nth_error R (b - k) = Some r.
Proof.
  intros A. induction R as [|q R IH]; intros k b r; cbn [length seq combine].
  - split; [intros []|]. intros [_ E]. destruct (b - k); discriminate.
  - cbn [In]. rewrite IH. split.
    + intros [E|[H1 H2]]; [injection E as -> ->; split; [auto|now rewrite Nat.sub_diag]|]. split; [lia|].
      replace (b - k) with (S (b - S k)) by lia. exact H2.
    + intros [H1 H2]. destruct (Nat.eq_dec k b) as [->|N]; [rewrite Nat.sub_diag in H2; injection H2 as ->; auto|].
      right. split; [lia|]. replace (b - k) with (S (b - S k)) in H2 by lia. exact H2.
Qed.
Lemma choices_spec : forall nulls R b mask, In (b, mask) (choices nulls R) <->
  exists r, nth_error R b = Some r /\ length mask = length (p_rhs r) /\ (forall s, In s (struck_out mask (p_rhs r)) -> In s nulls) /\ left_over mask (p_rhs r) <> [].
Proof.
  intros nulls R b mask. unfold choices. rewrite in_flat_map. split.
  - intros ((b', r) & H1 & H2). apply in_numbered in H1. rewrite Nat.sub_0_r in H1. destruct H1 as [_ H1]. cbn [fst snd] in H2.
    apply in_map_iff in H2. destruct H2 as (mk & E & H2). injection E as -> ->. apply filter_In in H2. destruct H2 as [H2 H3].
    apply masks_spec in H2. unfold mask_ok in H3. apply andb_true_iff in H3. destruct H3 as [H3 H4].
    rewrite all_mem in H3. change (keep mask (p_rhs r)) with (left_over mask (p_rhs r)) in H4.
    exists r. split; [auto|]. split; [auto|]. split; [auto|]. intros E. rewrite E in H4. discriminate.
  - intros (r & H1 & H2 & H3 & H4). exists (b, r). split; [apply in_numbered; rewrite Nat.sub_0_r; split; [lia|auto]|]. cbn [fst snd].
    apply in_map_iff. exists mask. split; [auto|]. apply filter_In. split; [now apply masks_spec|]. unfold mask_ok.
    apply andb_true_iff. split; [now apply all_mem|]. rewrite keep_left. destruct (left_over mask (p_rhs r)); [congruence|auto].
Qed.
Lemma choices_nodup : forall nulls R, NoDup (choices nulls R).
Proof.
  intros nulls R. unfold choices. generalize 0 as k. induction R as [|r R IH]; intros k; cbn [length seq combine flat_map]; [constructor|].
  apply NoDup_app_iff. split; [|split; [apply IH|]].
  - cbn [fst snd]. apply FinFun.Injective_map_NoDup; [intros x y E; now injection E|]. apply NoDup_filter, masks_nodup.
  - intros (b, mk) H1 H2. apply in_map_iff in H1. destruct H1 as (mk' & E & _). cbn [fst] in E. injection E as <- _.
    apply in_flat_map in H2. destruct H2 as ((b', r') & H2 & H3). apply in_numbered in H2. apply in_map_iff in H3.
    destruct H3 as (mk2 & E & _). cbn [fst] in E. injection E as -> _. lia.
Qed.

Section Eliminate.
  Variable B : pcfg.
  Notation R := (c_rules B).
  Notation ch := (choices (nullables R) R).
  Definition ref_origin (d : nat) : nat * list bool := nth d ch (0, []).

  Lemma elim_nth : forall d r, nth_error (c_rules (fst (eliminate B))) d = Some r ->
    exists r', nth_error ch d = Some (ref_origin d) /\ nth_error R (fst (ref_origin d)) = Some r' /\ r = choose R (ref_origin d) /\
      length (snd (ref_origin d)) = length (p_rhs r') /\ Forall (nullable R) (struck_out (snd (ref_origin d)) (p_rhs r')) /\
      left_over (snd (ref_origin d)) (p_rhs r') <> [].
  Proof.
    intros d r H. unfold eliminate in H. cbn [fst c_rules] in H. rewrite nth_error_map in H. destruct (nth_error ch d) as [o|] eqn:E; [|discriminate].
    injection H as <-. assert (Eo : ref_origin d = o) by (unfold ref_origin; now apply nth_error_nth). rewrite Eo. pose proof (nth_error_In _ _ E) as Hin.
    destruct o as [b mask]. apply choices_spec in Hin. destruct Hin as (r' & H1 & H2 & H3 & H4). exists r'. cbn [fst snd]. repeat (split; [solve [auto]|]).
    split; [|auto]. apply Forall_forall. intros s Hs. now apply nullables_spec, H3.
  Qed.
  Lemma choose_at : forall b r mask, nth_error R b = Some r -> choose R (b, mask) =
    mkRule (p_lhs r) (left_over mask (p_rhs r)) (p_origin r) (struck mask (p_rhs r)) (map (dot_of r) [0; 1; 2]).
  Proof. intros b r mask H. unfold choose. cbn [fst snd]. rewrite (nth_error_nth _ _ _ H), keep_left. reflexivity. Qed.

  (** every way of striking out is used *)
  Lemma elim_every : forall b r mask, nth_error R b = Some r -> length mask = length (p_rhs r) -> Forall (nullable R) (struck_out mask (p_rhs r)) ->
    left_over mask (p_rhs r) <> [] -> exists d, nth_error (c_rules (fst (eliminate B))) d = Some (choose R (b, mask)) /\ ref_origin d = (b, mask).
  Proof.
    intros b r mask Hb Hl Hn Hk. assert (Hin : In (b, mask) ch).
    { apply choices_spec. exists r. repeat (split; [solve [auto]|]). split; [|auto]. intros s Hs. apply nullables_spec. rewrite Forall_forall in Hn. auto. }
    apply In_nth_error in Hin. destruct Hin as (d & Hd). exists d. split; [|unfold ref_origin; now apply nth_error_nth].
    unfold eliminate. cbn [fst c_rules]. now rewrite nth_error_map, Hd.
  Qed.

  Lemma ref_eliminated : eliminated B (fst (eliminate B)) (snd (eliminate B)) ref_origin.
  Proof.
    split; try reflexivity.
    - intros d r Hd. destruct (elim_nth d r Hd) as (r' & _ & Hb & -> & Hl & Hn & Hk). destruct (ref_origin d) as (b, mask). cbn [fst snd] in *.
      exists r'. rewrite (choose_at b r' mask Hb). cbn [p_lhs p_rhs p_origin]. auto 8.
    - intros d r r' Hd Hb. destruct (elim_nth d r Hd) as (r2 & _ & Hb2 & -> & Hl & Hn & Hk). destruct (ref_origin d) as (b, mask). cbn [fst snd] in *.
      rewrite Hb in Hb2. injection Hb2 as <-. rewrite (choose_at b r' mask Hb). reflexivity.
    - intros d d' r r' Hd Hd' E. destruct (elim_nth d r Hd) as (_ & H1 & _). destruct (elim_nth d' r' Hd') as (_ & H2 & _).
      apply (proj1 (NoDup_nth_error ch) (choices_nodup _ _)); [apply nth_error_Some; congruence|congruence].
    - intros b r' mask Hb Hl Hn Hk _. destruct (elim_every b r' mask Hb Hl Hn Hk) as (d & Hd & Eo). eauto.
    - intros r. unfold eliminate. cbn [snd]. rewrite filter_In, all_mem, Forall_forall. split; intros [H1 H2]; (split; [auto|]);
        intros s Hs; apply nullables_spec; auto.
    - intros r Hr. apply In_nth_error in Hr. destruct Hr as (d & Hd). destruct (elim_nth d r Hd) as (r2 & _ & Hb2 & -> & _).
      destruct (ref_origin d) as (b, mask). cbn [fst snd] in *. rewrite (choose_at b r2 mask Hb2). unfold column_dot. cbn [p_dots map nth_error].
      unfold dot_of. split; [destruct (column_dot 1 r2)|destruct (column_dot 2 r2)]; discriminate.
  Qed.
End Eliminate.

(** ** The comparison *)
Section Compare.
  Variables (U : pcfg) (start : sym).
  Hypothesis HU : user_grammar U start.
  Notation U' := (ref_make_proper U).
  Notation W := (ref_wrap_input U').
  Notation B := (binarize W).
  Notation E := (fst (eliminate B)).
  Notation w := (ref_w U').
  Notation m := (meaning W).

  Lemma ref_HP : made_proper start U U'.
  Proof. now apply ref_proper. Qed.
  Lemma ref_HW : wrapped start U' W w.
  Proof. apply ref_wrap. exact (ug_roots _ _ HU). Qed.
  Lemma ref_W_range : forall s, used (c_rules W) s -> s < c_num_syms W.
  Proof. exact (W_range U U' start W w HU ref_HP ref_HW). Qed.
  Lemma ref_HB : binarized W B m (fun d => d).
  Proof. apply ref_binarized. exact ref_W_range. Qed.
  Lemma ref_HE : eliminated B E (snd (eliminate B)) (ref_origin B).
  Proof. apply ref_eliminated. Qed.
  Lemma ref_full : forall b r', nth_error (c_rules B) b = Some r' -> p_rhs r' <> [] -> exists d r, nth_error (c_rules E) d = Some r /\
    ref_origin B d = (b, repeat true (length (p_rhs r'))) /\ p_lhs r = p_lhs r' /\ p_rhs r = p_rhs r' /\ p_origin r = p_origin r'.
  Proof.
    intros b r' Hb Hne. destruct (elim_every B b r' (repeat true (length (p_rhs r'))) Hb) as (d & Hd & Eo).
    - apply repeat_length.
    - rewrite struck_out_none. constructor.
    - now rewrite left_over_all.
    - exists d. eexists. split; [exact Hd|]. split; [exact Eo|]. rewrite (choose_at B b r' _ Hb), left_over_all. auto.
  Qed.
  Lemma ref_shape : gen_shape (c_rules E) (gen W B).
  Proof. exact (E_shape U U' start W B E w m _ _ _ HU ref_HP ref_HW ref_HB ref_HE (fun b r' Hb Hn _ => ref_full b r' Hb Hn)). Qed.
  Lemma ref_E_range : forall s, used (c_rules E) s -> s < c_num_syms E.
  Proof. exact (E_range W B E m _ _ _ ref_HB ref_HE). Qed.

  Lemma ref_asym : forall order, remap_order E (w_eof w) = Ret order -> forall i j, i <> j -> bit order i j = true -> bit order j i = false.
  Proof.
    intros order Ho. destruct (find_gensyms_total E ref_E_range) as (gens & Hg).
    exact (order_asym U U' start W B E w m _ _ _ HU ref_HP ref_HW ref_HB ref_HE (fun b r' Hb Hn _ => ref_full b r' Hb Hn) order gens Ho Hg).
  Qed.
End Compare.

(** ** Sorting by insertion *)
Section Sort.
  Variables (cmp : sym -> sym -> res comparison) (L : list sym).
  Hypothesis Htotal : forall a b, In a L -> In b L -> exists o, cmp a b = Ret o.
  Hypothesis Hasym : forall a b, In a L -> In b L -> a <> b -> cmp a b = Ret Lt -> cmp b a = Ret Gt.

  Fixpoint settled (l : list sym) : Prop :=
    match l with
    | [] => True
    | a :: t => match t with b :: _ => cmp b a <> Ret Lt | [] => True end /\ settled t
    end.
  Lemma settled_nth : forall l p a b, settled l -> nth_error l p = Some a -> nth_error l (S p) = Some b -> cmp b a <> Ret Lt.
  Proof.
    induction l as [|x l IH]; intros p a b Hs Ha Hb; [destruct p; discriminate|]. destruct Hs as [H1 H2]. destruct p as [|p].
    - cbn in Ha, Hb. injection Ha as ->. destruct l as [|y l]; [discriminate|]. cbn in Hb. injection Hb as ->. auto.
    - exact (IH p a b H2 Ha Hb).
  Qed.

  Lemma insert_spec : forall x l, In x L -> incl l L -> ~ In x l -> settled l -> exists l', insert cmp x l = Ret l' /\ Permutation (x :: l) l' /\
    settled l' /\ (match l' with h :: _ => h = x \/ hd_error l = Some h | [] => False end).
  Proof.
    intros x. induction l as [|y l IH]; intros Hx Hl Nx Hs; cbn [insert].
    - exists [x]. cbn. auto 6.
    - assert (Hy : In y L) by (apply Hl; cbn; auto). destruct (Htotal x y Hx Hy) as (o & Eo). rewrite Eo. cbn [bind].
      assert (Stop : o <> Gt -> cmp y x <> Ret Lt).
      { intros No K. apply No. assert (y <> x) by (intros ->; apply Nx; cbn; auto). pose proof (Hasym y x Hy Hx H K). congruence. }
      assert (Here : o <> Gt -> exists l', Ret (x :: y :: l) = Ret l' /\ Permutation (x :: y :: l) l' /\ settled l' /\
        (match l' with h :: _ => h = x \/ hd_error (y :: l) = Some h | [] => False end)).
      { intros No. exists (x :: y :: l). split; [auto|]. split; [auto|]. split; [split; auto|auto]. }
      destruct o; try (apply Here; discriminate). destruct Hs as [Hs1 Hs2].
      destruct IH as (l' & -> & Hp & Hs' & Hh); [auto|intros z Hz; apply Hl; cbn; auto|intros K; apply Nx; cbn; auto|auto|].
      cbn [bind]. exists (y :: l'). split; [auto|]. split; [rewrite perm_swap; now constructor|]. split; [|auto]. split; [|auto].
      destruct l' as [|h l']; [auto|]. destruct Hh as [->|Hh]; [congruence|]. destruct l as [|z l]; [discriminate|]. cbn in Hh. congruence.
  Qed.

  Lemma sort_spec : forall l, incl l L -> NoDup l -> exists l', sort_syms cmp l = Ret l' /\ Permutation l l' /\ settled l'.
  Proof.
    intros l Hl Hd. unfold sort_syms.
    assert (K : forall l acc, incl (l ++ acc) L -> NoDup (l ++ acc) -> settled acc -> exists l', foldM (fun l x => insert cmp x l) l acc = Ret l' /\
      Permutation (l ++ acc) l' /\ settled l').
    { clear l Hl Hd. induction l as [|x l IH]; intros acc Hl Hd Hs; cbn [foldM]; [exists acc; auto|]. cbn [app] in *.
      inversion Hd as [|? ? Nx Hd']; subst.
      destruct (insert_spec x acc) as (a' & -> & Hp & Hs' & _); [apply Hl; cbn; auto|intros z Hz; apply Hl; cbn; right; apply in_app_iff; auto|
        intros K; apply Nx, in_app_iff; auto|auto|]. cbn [bind].
      assert (Hp' : Permutation (x :: l ++ acc) (l ++ a')) by (rewrite <- Hp; apply Permutation_middle).
      destruct (IH a') as (l' & E1 & E2 & E3); [intros z Hz; apply Hl; eapply Permutation_in; [symmetry; exact Hp'|auto]|
        eapply Permutation_NoDup; eauto|auto|]. exists l'. split; [auto|]. split; [|auto]. now rewrite Hp'. }
    destruct (K l []) as (l' & E1 & E2 & E3); [now rewrite app_nil_r|now rewrite app_nil_r|exact I|]. rewrite app_nil_r in E2. eauto.
  Qed.
End Sort.

(** ** FIRST and FOLLOW sets *)
Section Sets.
  Variable c : pcfg.
  Notation R := (c_rules c).
  Hypothesis Hne : forall r, In r R -> p_rhs r <> [].
  Definition near (a b : nat) : bool :=
    existsb (fun r => existsb (fun p => mem a (tails_of R (fst p)) && mem b (heads_of R (snd p))) (neighbours (p_rhs r))) R.

  Lemma heads_step : forall r B l, In r R -> p_rhs r = B :: l -> forall s, In s (heads_of R B) -> In s (heads_of R (p_lhs r)).
  Proof.
    intros r B l Hr Er. unfold heads_of. apply closure_least; [apply closure_closed|]. intros s [<-|[]].
    apply (closure_closed (first_clauses R) [p_lhs r] ([p_lhs r], B)).
    - unfold first_clauses. apply in_flat_map. exists r. split; [auto|]. rewrite Er. cbn. auto.
    - intros s [<-|[]]. apply closure_in. cbn. auto.
  Qed.
  Lemma tails_step : forall r B l, In r R -> p_rhs r = B :: l -> forall s, In s (tails_of R (last l B)) -> In s (tails_of R (p_lhs r)).
  Proof.
    intros r B l Hr Er. unfold tails_of. apply closure_least; [apply closure_closed|]. intros s [<-|[]].
    apply (closure_closed (last_clauses R) [p_lhs r] ([p_lhs r], last l B)).
    - unfold last_clauses. apply in_flat_map. exists r. split; [auto|]. rewrite Er. cbn. auto.
    - intros s [<-|[]]. apply closure_in. cbn. auto.
  Qed.
  Lemma near_joins : forall r, In r R -> forall l, incl (neighbours l) (neighbours (p_rhs r)) -> Check.joins_ok (heads_of R) (tails_of R) near l = true.
  Proof.
    intros r Hr. induction l as [|a l IH]; intros Hl; [reflexivity|]. cbn [Check.joins_ok]. apply andb_true_iff. split.
    - destruct l as [|b l]; [auto|]. unfold Check.join_ok. apply forallb_forall. intros x Hx. apply forallb_forall. intros y Hy.
      unfold near. apply existsb_exists. exists r. split; [auto|]. apply existsb_exists. exists (a, b).
      split; [apply Hl; cbn; auto|]. cbn [fst snd]. apply andb_true_iff. split; now apply mem_In.
    - apply IH. intros p Hp. apply Hl. cbn [neighbours]. apply in_app_iff. auto.
  Qed.
  Lemma near_shape : forall A x, derives R A x -> Check.shape (heads_of R) (tails_of R) near A x.
  Proof.
    apply (Check.derives_shape R (heads_of R) (tails_of R) near).
    - intros s. split; apply closure_in; cbn; auto.
    - apply forallb_forall. intros r Hr. pose proof (Hne r Hr) as N. destruct (p_rhs r) as [|B l] eqn:Er; [contradiction|].
      apply andb_true_iff. split; [apply andb_true_iff; split|].
      + unfold Check.subset. apply forallb_forall. intros s Hs. apply Check.mem_In. exact (heads_step r B l Hr Er s Hs).
      + unfold Check.subset. apply forallb_forall. intros s Hs. apply Check.mem_In. exact (tails_step r B l Hr Er s Hs).
      + rewrite <- Er. apply (near_joins r Hr). apply incl_refl.
  Qed.

  Lemma ref_first_cover : first_sets_cover c (ref_first c).
  Proof.
    intros r t v Hr Ht Hd. destruct (near_shape _ _ Hd) as (h & x & E & Hh & _). injection E as <- _.
    eexists. split; [unfold ref_first; apply in_map_iff; exists r; split; [reflexivity|auto]|]. apply filter_In. split; [auto|now apply is_terminal_spec].
  Qed.
  Lemma ref_follow_cover : forall root, follow_sets_cover c root (ref_follow c).
  Proof.
    intros root r t u v Hr Ht Hd. destruct (near_shape _ _ Hd) as (h & x & E & _ & _ & Ha). apply Check.adj_in in Ha.
    unfold near in Ha. apply existsb_exists in Ha. destruct Ha as (q & Hq & Ha). apply existsb_exists in Ha. destruct Ha as (p & Hp & Ha).
    apply andb_true_iff in Ha. destruct Ha as [H1 H2]. apply mem_In in H1. apply mem_In in H2.
    eexists. split.
    - unfold ref_follow. apply in_flat_map. exists q. split; [auto|]. apply in_flat_map. exists p. split; [auto|].
      apply in_map_iff. eexists. split; [reflexivity|exact H1].
    - apply filter_In. split; [auto|now apply is_terminal_spec].
  Qed.
End Sets.

(** ** Renumbering *)
Lemma used_syms_spec : forall R s, In s (used_syms R) <-> used R s.
Proof.
  intros R s. unfold used_syms. rewrite nodup_In, in_flat_map. split; intros (r & Hr & Hs); exists r; (split; [auto|]); cbn in *; auto.
Qed.
Lemma place_nth : forall l s, In s l -> nth_error l (place s l) = Some s.
Proof.
  induction l as [|x l IH]; intros s H; [destruct H|]. cbn [place]. destruct (x =? s) eqn:E; [apply Nat.eqb_eq in E; now subst|].
  apply Nat.eqb_neq in E. destruct H as [H|H]; [congruence|]. cbn. auto.
Qed.
Lemma place_lt : forall l s, In s l -> place s l < length l.
Proof. intros l s H. apply nth_error_Some. rewrite place_nth; auto. discriminate. Qed.
Lemma place_out : forall l s, ~ In s l -> place s l = length l.
Proof.
  induction l as [|a l IH]; intros s H; [reflexivity|]. simpl in H |- *. destruct (Nat.eqb_spec a s) as [->|N]; [exfalso; auto|]. f_equal. apply IH. auto.
Qed.
Lemma nth_place : forall l p s, NoDup l -> nth_error l p = Some s -> place s l = p.
Proof.
  intros l p s Hd Hp. assert (Hin : In s l) by (eapply nth_error_In; eauto).
  apply (proj1 (NoDup_nth_error l) Hd); [now apply place_lt|]. rewrite place_nth; auto.
Qed.

Section Remapped.
  Variables (pre : list sym -> list sym) (E : pcfg) (w : wrapped_root) (order : bitmatrix).
  Hypothesis Hpre : forall l, Permutation l (pre l).
  Hypothesis Hrange : forall s, used (c_rules E) s -> s < c_num_syms E.
  Hypothesis Hpos : 0 < c_num_syms E.
  Hypothesis Hsq : square (c_num_syms E) order.
  Hypothesis Has : forall i j, i <> j -> bit order i j = true -> bit order j i = false.
  Notation cmp := (remap_cmp order).

  Lemma ref_remapped : exists c maps f, ref_remap pre cmp E = Ret (c, maps) /\ remapped cmp E c maps f /\
    (forall r, In r (c_rules c) -> exists r', In r' (c_rules E) /\ p_rhs r = map f (p_rhs r')) /\
    (forall s t, ~ used (c_rules E) s -> used (c_rules E) t -> f s <> f t) /\ c_wrapped c = map (rename_wrapped f) (c_wrapped E).
  Proof.
    assert (CS : forall a b, In a (used_syms (c_rules E)) -> In b (used_syms (c_rules E)) ->
      cmp a b = Ret (if bit order a b then Lt else if bit order b a then Gt else Eq)).
    { intros a b Ha Hb. apply used_syms_spec in Ha. apply used_syms_spec in Hb. apply (cmp_spec _ _ _ _ Hsq); auto. }
    destruct (sort_spec cmp (used_syms (c_rules E))) with (l := pre (used_syms (c_rules E))) as (l & El & Hp & Hs).
    - intros a b Ha Hb. rewrite CS by auto. eauto.
    - intros a b Ha Hb N. rewrite !CS by auto. destruct (bit order a b) eqn:Eb; [|destruct (bit order b a); discriminate].
      rewrite (Has _ _ N Eb). auto.
    - intros a Ha. exact (Permutation_in a (Permutation_sym (Hpre _)) Ha).
    - eapply Permutation_NoDup; [apply Hpre|apply NoDup_nodup].
    - pose proof (Permutation_trans (Hpre _) Hp) as Hp'. clear Hp. rename Hp' into Hp.
      assert (Hd : NoDup l) by (eapply Permutation_NoDup; [exact Hp|apply NoDup_nodup]).
      assert (Hu : forall s, In s l <-> used (c_rules E) s).
      { intros s. rewrite <- used_syms_spec. split; intros H; [apply (Permutation_in s (Permutation_sym Hp) H)|apply (Permutation_in s Hp H)]. }
      set (f := fun s => place s l).
      exists (mkCfg (map (rename f) (c_rules E)) (length l) (map f (c_roots E)) (map (rename_wrapped f) (c_wrapped E))),
        (mkMapping (map (fun s => if mem s l then Some (f s) else None) (seq 0 (c_num_syms E))) l), f.
      assert (Int : forall a, a < c_num_syms E -> map_to_internal (mkMapping (map (fun s => if mem s l then Some (f s) else None) (seq 0 (c_num_syms E))) l) a =
        Ret (if mem a l then Some (f a) else None)).
      { intros a Ha. unfold map_to_internal. cbn [m_to_internal].
        assert (Ei : nth_error (map (fun s => if mem s l then Some (f s) else None) (seq 0 (c_num_syms E))) a = Some (if mem a l then Some (f a) else None)).
        { rewrite nth_error_map, (nth_error_nth' _ 0) by (rewrite seq_length; auto). rewrite seq_nth by auto. reflexivity. }
        destruct (map _ _) as [|z q]; [destruct a; discriminate|]. now apply idx_some. }
      split; [unfold ref_remap; rewrite El; reflexivity|]. split.
      + split; cbn [c_rules c_num_syms c_roots c_wrapped].
        * clear. induction (c_rules E) as [|r R IH]; constructor; [|auto]. unfold renamed, rename. cbn. auto 6.
        * intros a b Ha Hb Eab. apply Hu in Ha. apply Hu in Hb. apply place_nth in Ha. apply place_nth in Hb. unfold f in Eab. congruence.
        * intros a Ha. apply place_lt. now apply Hu.
        * intros t Ht. destruct (nth_error l t) as [a|] eqn:Et; [|apply nth_error_None in Et; lia]. exists a.
          split; [apply Hu; eapply nth_error_In; eauto|]. now apply nth_place.
        * intros low H a b Ha Hb La Nb.
          apply (Check.order_by_neighbours cmp l low) with (a := a) (b := b); auto.
          -- intros x y Hx Hy. apply H; now apply Hu.
          -- intros p x y. now apply settled_nth.
          -- apply place_nth. now apply Hu.
          -- apply place_nth. now apply Hu.
        * intros a Ha. rewrite Int by auto. apply Hu in Ha. apply mem_In in Ha. now rewrite Ha.
        * intros a Ha. apply Hu, place_nth in Ha. fold (f a) in Ha. unfold map_to_external. cbn [m_to_external].
          clear -Ha. destruct l as [|z q]; [destruct (f a); discriminate|]. now apply idx_some.
        * intros a La Na. rewrite Int by auto. destruct (mem a l) eqn:Em; [|auto]. exfalso. apply Na, Hu. now apply mem_In.
        * intros w0 ->. exists (rename_wrapped f w0). cbn. auto 6.
        * reflexivity.
      + split.
        * intros r Hr. cbn [c_rules] in Hr. apply in_map_iff in Hr. destruct Hr as (r' & <- & Hr'). exists r'. auto.
        * split; [|reflexivity]. intros s t Ns Ut K. apply Hu in Ut. apply place_lt in Ut. unfold f in K. rewrite <- K, place_out in Ut; [lia|]. now rewrite Hu.
  Qed.
End Remapped.

(** ** The contract is kept for every grammar *)
Lemma reference_by_apart : forall pre, (forall l, Permutation l (pre l)) -> forall U start, user_grammar U start ->
  crate_apart (reference_by pre) U start.
Proof.
  intros pre Hpre U start HU. set (U' := ref_make_proper U). set (W := ref_wrap_input U'). set (B := binarize W). set (E := fst (eliminate B)).
  pose proof (ref_HB U start HU) as HB. pose proof (ref_HE U) as HE. fold U' W B E in HB, HE.
  pose proof (ref_E_range U start HU) as Hr. fold U' W B E in Hr.
  assert (Le : w_eof (ref_w U') < c_num_syms E).
  { rewrite (el_syms _ _ _ _ HE). pose proof (wrap_fields U' start W (ref_w U') (ref_HW U start HU)) as (_ & _ & L).
    pose proof (bz_syms _ _ _ _ HB). unfold sym in *. lia. }
  destruct (remap_order_square E Hr (w_eof (ref_w U')) Le) as (order & Ho & Hsq).
  destruct (ref_remapped pre E order Hpre Hr ltac:(lia) Hsq) as (c & maps & f & Ec & HR & Hc & Hap & Ew).
  { exact (ref_asym U start HU order Ho). }
  exists W, B, E, c, (ref_w U'), (meaning W), (fun d => d), (snd (eliminate B)), (ref_origin B), maps, f.
  assert (Hne : forall r, In r (c_rules (sort_rules_by_lhs c)) -> p_rhs r <> []).
  { intros r K. apply (sorted_in c) in K. destruct (Hc r K) as (r' & Hr' & Er). destruct (elim_rule B E _ _ HE r' Hr') as (q & mask & _ & _ & _ & _ & _ & N & _).
    rewrite Er. destruct (p_rhs r'); [contradiction|discriminate]. }
  assert (Hin : map w_inner (c_wrapped c) = [f start]).
  { rewrite Ew, (el_wrapped _ _ _ _ HE), (bz_wrapped _ _ _ _ HB), (wr_wrapped _ _ _ _ (ref_HW U start HU) : c_wrapped W = [ref_w U']). cbn. f_equal. f_equal.
    exact (wr_inner _ _ _ _ (ref_HW U start HU)). }
  split; [|split; [intros s t _; apply Hap|exact Hin]]. split.
  - exact (ref_HP U start HU).
  - split; [reflexivity|exact (ref_HW U start HU)].
  - exact HB.
  - split; [cbn [reference_by x_binarize_and_eliminate]; fold B; unfold E; now destruct (eliminate B)|exact HE].
  - intros order' Ho'. assert (order' = order) by congruence. subst order'. split; [exact Ec|exact HR].
  - now apply ref_first_cover.
  - now apply ref_follow_cover.
Qed.
Lemma reference_apart : forall U start, user_grammar U start -> crate_apart reference U start.
Proof. exact (reference_by_apart (fun l => l) (fun l => Permutation_refl l)). Qed.
Lemma put_down_perm : forall l, Permutation l (fold_right put_down [] l).
Proof.
  induction l as [|x l IH]; [constructor|]. cbn [fold_right]. rewrite IH at 1. clear IH. induction (fold_right put_down [] l) as [|y t IH]; [auto|].
  cbn [put_down]. destruct (y <? x); [auto|]. rewrite perm_swap. now constructor.
Qed.
Lemma numbered_apart : forall U start, user_grammar U start -> crate_apart numbered U start.
Proof. exact (reference_by_apart _ put_down_perm). Qed.
Lemma reference_keeps : forall U start, user_grammar U start -> crate_contract reference U start.
Proof. intros U start HU. exact (apart_contract _ _ _ (reference_apart U start HU)). Qed.
