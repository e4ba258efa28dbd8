(** ReadingProofs: the ambiguous example calculator. *)
From Coq Require Import String Ascii List Arith Bool ZArith Lia Permutation.
From Verif Require Import Base BaseProofs Item Grammar DefaultGrammar Forest ForestSpec Recognizer Drive Parse SimpleBocage Spec SpecFacts CfgSpec ClientSpec
  EvalSpec TreeSpec Check CompactGraph CompactBocage RecogAny ParseFacts PropLemmas PropLemmas4 RootTop ExampleMath MathTables MathSpec PropLemmas7 MathProofs ReadingSpec.
Import ListNotations.
Local Open Scope res_scope.
Local Open Scope list_scope.

(** ** The client on an input whose trees differ at the top *)
Section Client.
  Variable P : perf.
  Variables (c : pcfg) (nsyms : nat) (w : wrapped_root) (d0 : nat) (g0 : sym) (g : dgrammar).
  Hypothesis Hleo : LEO P = false.
  Hypothesis HB : built c nsyms w d0 g0 g.
  Context {E : Type}.
  Variables (ev : evaluator E) (nv : sym -> E) (nulls : sym -> list E).
  Hypothesis Hpush : pushes ev nv.
  Hypothesis Hnulls : nulls_ok (g_forest_info g) nv nulls.
  Hypothesis Hacyc : nulling_acyclic (g_forest_info g).
  Notation over syms t := (parse_tree (c_rules c) (w_inner w) t /\ yield t = combine syms (seq 0 (length syms))).

  Lemma P_client_values : ordered_grammar c -> (exists d, wrapped_once c w g0 d) ->
    forall b0 cb0, bocage_new (g_forest_info g) = Ret b0 -> cbocage_new (g_forest_info g) = Ret cb0 ->
    forall tokens syms, mapped g tokens syms -> (forall s : sym, In s syms -> user_terminal c nsyms w s) -> syms <> [] ->
    (exists t, over syms t) ->
    (forall t t', over syms t -> over syms t' -> root_split t = root_split t' -> t = t') ->
    exists fuel0 us, NoDup us /\ (forall t, In t us <-> over syms t) /\
      forall fuel, fuel0 <= fuel ->
        parse_and_evaluate ev P g fuel tokens = Ret (concat (map (value ev (g_forest_info g) nulls) us)).
  Proof.
    intros Ho Hw b0 cb0 Hb0 Hcb0 tokens syms Hm Hu Hne Hex Hd. setoid_rewrite <- numbered_combine in Hex. setoid_rewrite <- numbered_combine in Hd.
    setoid_rewrite <- numbered_combine.
    destruct (root_readings P c nsyms w d0 g0 g Hleo HB nv nulls Hnulls Hacyc ev Hpush Ho Hw b0 cb0 Hb0 Hcb0 after0 (numbered 0 syms))
      as (n & h & b & us & Htot & Hnd & Hus & (fuel0 & b1 & Hev) & _).
    { destruct syms; [easy|discriminate]. }
    { intros s v H. apply Hu. rewrite <- (numbered_fst syms 0). now apply (in_map fst) in H. }
    { exact Hex. }
    { intros t t' A B C D. now apply Hd. }
    exists (Nat.max n fuel0), us. split; [auto|]. split; [auto|]. intros fuel Hf. specialize (Htot fuel). specialize (Hev fuel ltac:(lia)).
    cbv beta in Htot. replace (fuel <? n) with false in Htot by (symmetry; apply Nat.ltb_ge; lia).
    unfold parse_and_evaluate. rewrite Hb0. cbn [bind]. destruct (r_new g b0) as [st0| |] eqn:En; cbn [bind] in Htot |- *; try discriminate.
    assert (Hh : r_hint st0 = None).
    { unfold r_new in En. destruct (idx _ 0); try discriminate. cbn [bind] in En. destruct (prediction_row _ _); try discriminate. cbn [bind] in En.
      destruct (predict _ _ _); try discriminate. cbn [bind] in En. destruct (upd _ _ _); try discriminate. cbn [bind] in En. now injection En as <-. }
    pose proof (parse_feed simple_forest P g fuel tokens syms st0 Hm Hh) as Hp. cbn zeta in Hp.
    rewrite (sof_sym c nsyms w d0 g0 g HB) in Hp. unfold parse_forest in Htot.
    destruct (feed_all _ _ _ _ _ st0) as [[[] st']| |]; cbn [bind] in Htot; try discriminate.
    destruct (finished_node simple_forest g st') as [o| |] eqn:Ef; cbn [bind] in Htot; try discriminate. injection Htot as -> <-.
    unfold is_finished in Hp. rewrite Ef in Hp. cbn [bind is_null negb] in Hp. rewrite Hp. cbn [bind]. rewrite Ef. cbn [bind unwrap].
    rewrite Hev. reflexivity.
  Qed.
End Client.

(** ** Tokens and trees of readings *)
Definition op_number (o : operator) : nat := match o with Add => 0 | Sub => 1 | Mul => 2 | Div => 3 end.
Fixpoint rtoks (e : reading) : list sym :=
  match e with
  | Num ds => map (fun d => 8 + d) ds
  | Op l o r => rtoks l ++ (4 + op_number o) :: rtoks r
  end.
Fixpoint ntree (ds : list nat) (n : nat) : tree :=
  match ds with
  | [] => Leaf 0 0
  | [d] => Node (7 + 2 * d) [Leaf (8 + d) n]
  | d :: ds => Node (6 + 2 * d) [Leaf (8 + d) n; ntree ds (S n)]
  end.
Fixpoint rtree (e : reading) (n : nat) : tree :=
  match e with
  | Num ds => Node 1 [ntree ds n]
  | Op l o r => let m := n + length (rtoks l) in
      Node 0 [Node 28 [rtree l n; Node (2 + op_number o) [Leaf (4 + op_number o) m]]; rtree r (S m)]
  end.
Notation numb n l := (combine l (seq n (length l))).

Lemma numb_app : forall n (a b : list sym), numb n (a ++ b) = numb n a ++ numb (n + length a) b.
Proof.
  intros n a. revert n. induction a as [|x a IH]; intros n b; cbn [length seq app combine]; [now rewrite Nat.add_0_r|].
  f_equal. rewrite IH. f_equal. f_equal. now rewrite Nat.add_succ_comm.
Qed.

Lemma ntree_yield : forall ds n, ds <> [] -> yield (ntree ds n) = numb n (map (fun d => 8 + d) ds).
Proof.
  induction ds as [|d ds IH]; intros n H; [easy|]. destruct ds as [|d' ds]; [reflexivity|].
  change (ntree (d :: d' :: ds) n) with (Node (6 + 2 * d) [Leaf (8 + d) n; ntree (d' :: ds) (S n)]).
  cbn [yield flat_map]. rewrite app_nil_r, IH by discriminate. reflexivity.
Qed.
Lemma rtree_yield : forall e n, reading_ok e -> yield (rtree e n) = numb n (rtoks e).
Proof.
  induction e as [ds|l IHl o r IHr]; intros n H; cbn [rtree rtoks].
  - cbn [yield flat_map]. rewrite app_nil_r. apply ntree_yield, H.
  - destruct H as [H1 H2]. cbn zeta. cbn [yield flat_map]. rewrite (IHl _ H1), (IHr _ H2), numb_app, !app_nil_r, <- app_assoc. reflexivity.
Qed.

Notation R := (c_rules amath).
Lemma adigit_rules : forall d, d < 10 ->
  nth_error R (6 + 2 * d) = Some (plain_rule 3 [8 + d; 3] (Some (6 + 2 * d))) /\
  nth_error R (7 + 2 * d) = Some (plain_rule 3 [8 + d] (Some (7 + 2 * d))).
Proof. intros d H. do 10 (destruct d as [|d]; [split; reflexivity|]). lia. Qed.
Lemma op_rules : forall o, nth_error R (2 + op_number o) = Some (plain_rule 2 [4 + op_number o] (Some (2 + op_number o))).
Proof. intros []; reflexivity. Qed.

Lemma ntree_ok : forall ds n, digits_ok ds -> parse_tree R 3 (ntree ds n).
Proof.
  induction ds as [|d ds IH]; intros n [H1 H2]; [easy|]. inversion H2 as [|? ? Hd Hds]; subst. destruct (adigit_rules d Hd) as [E1 E2].
  destruct ds as [|d' ds].
  - apply (pt_node R _ _ _ E2). repeat constructor.
  - change (ntree (d :: d' :: ds) n) with (Node (6 + 2 * d) [Leaf (8 + d) n; ntree (d' :: ds) (S n)]).
    apply (pt_node R _ _ _ E1). cbn. repeat constructor. apply IH. split; [discriminate|auto].
Qed.
Lemma rtree_ok : forall e n, reading_ok e -> parse_tree R 1 (rtree e n).
Proof.
  induction e as [ds|l IHl o r IHr]; intros n H; cbn [rtree].
  - refine (pt_node R 1 (plain_rule 1 [3] (Some 1)) _ eq_refl _). repeat constructor. now apply ntree_ok.
  - destruct H as [H1 H2]. cbn zeta. refine (pt_node R 0 (plain_rule 1 [21; 1] (Some 0)) _ eq_refl _).
    repeat constructor; [|now apply IHr].
    refine (pt_node R 28 (plain_rule 21 [1; 2] None) _ eq_refl _). repeat constructor; [now apply IHl|].
    refine (pt_node R _ _ _ (op_rules o) _). repeat constructor.
Qed.

(** ** Every parse tree of numbered terminals is the tree of a reading *)
Definition aover (t : tree) : Prop := forall s v, In (s, v) (yield t) -> is_terminal R s = true.
Definition atable : list (nat * (sym * list sym)) :=
  Eval vm_compute in combine (seq 0 29) (map (fun r => (p_lhs r, p_rhs r)) R).
Lemma in_atable : forall d r, nth_error R d = Some r -> In (d, (p_lhs r, p_rhs r)) atable.
Proof.
  intros d r H. change atable with (combine (seq 0 29) (map (fun r => (p_lhs r, p_rhs r)) R)).
  assert (X : forall k (l : list prule) d, nth_error l d = Some r ->
     In (k + d, (p_lhs r, p_rhs r)) (combine (seq k (length l)) (map (fun r => (p_lhs r, p_rhs r)) l))).
  { intros k l. revert k. induction l as [|a l IH]; intros k [|d0] E; try discriminate; cbn [length seq combine map].
    - injection E as ->. rewrite Nat.add_0_r. now left.
    - right. replace (k + S d0) with (S k + d0) by lia. now apply IH. }
  exact (X 0 R d H).
Qed.
Definition arules_of (s : sym) : list (nat * list sym) :=
  map (fun x => (fst x, snd (snd x))) (filter (fun x => fst (snd x) =? s) atable).
Lemma atree_rule : forall s d ts, parse_tree R s (Node d ts) -> exists rhs, In (d, rhs) (arules_of s) /\ parse_trees R rhs ts.
Proof.
  intros s d ts H. inversion H as [|? r ? E Hp]; subst. exists (p_rhs r). split; [|auto].
  apply in_atable in E. unfold arules_of. apply in_map_iff. exists (d, (p_lhs r, p_rhs r)). split; [auto|].
  apply filter_In. split; [auto|]. apply Nat.eqb_refl.
Qed.
Lemma akids1 : forall a ts, parse_trees R [a] ts -> exists x, ts = [x] /\ parse_tree R a x.
Proof. intros a ts H. inversion H as [|? ? x ? Hx Hr]; subst. inversion Hr; subst. eauto. Qed.
Lemma akids2 : forall a b ts, parse_trees R [a; b] ts -> exists x y, ts = [x; y] /\ parse_tree R a x /\ parse_tree R b y.
Proof. intros a b ts H. inversion H as [|? ? x ? Hx Hr]; subst. apply akids1 in Hr. destruct Hr as (y & -> & Hy). eauto 6. Qed.
Lemma aover1 : forall d x, aover (Node d [x]) -> aover x.
Proof. intros d x H s v Hs. apply (H s v). cbn. now rewrite app_nil_r. Qed.
Lemma aover2 : forall d x y, aover (Node d [x; y]) -> aover x /\ aover y.
Proof. intros d x y H. split; intros s v Hs; apply (H s v); cbn; rewrite app_nil_r; apply in_app_iff; auto. Qed.
Lemma aleaf : forall s n t, is_terminal R s = true -> parse_tree R s t -> counted n t -> t = Leaf s n.
Proof.
  intros s n t Ht Hp Hc. apply is_terminal_spec in Ht. inversion Hp as [? v|d r ts E]; subst.
  - unfold counted in Hc. cbn in Hc. now injection Hc as ->.
  - elim (Ht r); auto. eapply nth_error_In; eauto.
Qed.
Lemma ainner : forall s t, parse_tree R s t -> is_terminal R s = false -> aover t -> exists d ts, t = Node d ts.
Proof.
  intros s t Hp Ht Ho. inversion Hp as [? v|d r ts E]; subst; [|eauto].
  rewrite (Ho s v) in Ht; [discriminate|]. now left.
Qed.

Lemma op_tree : forall t n, aover t -> counted n t -> parse_tree R 2 t ->
  exists o, t = Node (2 + op_number o) [Leaf (4 + op_number o) n].
Proof.
  intros t n Ho Hc Hp. destruct (ainner _ _ Hp eq_refl Ho) as (d & ts & ->).
  apply atree_rule in Hp. destruct Hp as (rhs & Hin & Hp). vm_compute in Hin.
  repeat (destruct Hin as [Hin|Hin]; [injection Hin as <- <-|]); [..|easy].
  1: exists Add. 2: exists Sub. 3: exists Mul. 4: exists Div.
  all: apply akids1 in Hp; destruct Hp as (x & -> & Hx); apply counted1 in Hc; eapply aleaf in Hx; [|reflexivity|exact Hc]; now rewrite Hx.
Qed.

Lemma tree_number : forall k t n, size t <= k -> aover t -> counted n t -> parse_tree R 3 t -> exists ds, digits_ok ds /\ t = ntree ds n.
Proof.
  induction k as [|k IH]; intros t n Hk Ho Hc Hp; [destruct t; cbn in Hk; lia|].
  destruct (ainner _ _ Hp eq_refl Ho) as (d & ts & ->).
  assert (X : exists i, i < 10 /\ ((d = 6 + 2 * i /\ parse_trees R [8 + i; 3] ts) \/ (d = 7 + 2 * i /\ parse_trees R [8 + i] ts))).
  { apply atree_rule in Hp. destruct Hp as (rhs & Hin & Hp). vm_compute in Hin.
    repeat (destruct Hin as [Hin|Hin]; [injection Hin as <- <-|]); [..|easy].
    1,2: exists 0. 3,4: exists 1. 5,6: exists 2. 7,8: exists 3. 9,10: exists 4. 11,12: exists 5. 13,14: exists 6.
    15,16: exists 7. 17,18: exists 8. 19,20: exists 9. all: split; [lia|]; auto. }
  assert (T : forall i, i < 10 -> is_terminal R (8 + i) = true).
  { intros i Hi. do 10 (destruct i as [|i]; [reflexivity|]). lia. }
  destruct X as (i & Hi & [[-> X] | [-> X]]).
  - apply akids2 in X. destruct X as (x & y & -> & Hx & Hy). destruct (aover2 _ _ _ Ho) as [Ox Oy]. destruct (counted2 _ _ _ _ Hc) as [Cx Cy].
    eapply aleaf in Hx; [|now apply T|exact Cx]. subst x.
    destruct (IH y _ ltac:(cbn in Hk; unfold list_sum in Hk; cbn in Hk; lia) Oy Cy Hy) as (ds & [Wn Wd] & Ed).
    exists (i :: ds). split; [split; [discriminate|auto]|]. rewrite Ed. destruct ds as [|d ds]; [easy|].
    change (ntree (i :: d :: ds) n) with (Node (6 + 2 * i) [Leaf (8 + i) n; ntree (d :: ds) (S n)]).
    cbn [yield length]. now rewrite Nat.add_1_r.
  - apply akids1 in X. destruct X as (x & -> & Hx). apply counted1 in Hc. eapply aleaf in Hx; [|now apply T|exact Hc].
    exists [i]. split; [split; [discriminate|auto]|]. now rewrite Hx.
Qed.

Lemma tree_reading : forall k t n, size t <= k -> aover t -> counted n t -> parse_tree R 1 t -> exists e, reading_ok e /\ t = rtree e n.
Proof.
  induction k as [|k IH]; intros t n Hk Ho Hc Hp; [destruct t; cbn in Hk; lia|].
  destruct (ainner _ _ Hp eq_refl Ho) as (d & ts & ->).
  apply atree_rule in Hp. destruct Hp as (rhs & Hin & Hp). vm_compute in Hin.
  repeat (destruct Hin as [Hin|Hin]; [injection Hin as <- <-|]); [..|easy].
  - apply akids2 in Hp. destruct Hp as (x & y & -> & Hx & Hy). destruct (aover2 _ _ _ Ho) as [Ox Oy]. destruct (counted2 _ _ _ _ Hc) as [Cx Cy].
    destruct (ainner _ _ Hx eq_refl Ox) as (d & ts & ->).
    apply atree_rule in Hx. destruct Hx as (rhs & Hin & Hx). vm_compute in Hin.
    repeat (destruct Hin as [Hin|Hin]; [injection Hin as <- <-|]); [..|easy].
    apply akids2 in Hx. destruct Hx as (z & q & -> & Hz & Hq). destruct (aover2 _ _ _ Ox) as [Oz Oq]. destruct (counted2 _ _ _ _ Cx) as [Cz Cq].
    cbn in Hk. unfold list_sum in Hk. cbn in Hk.
    destruct (IH z n ltac:(lia) Oz Cz Hz) as (l & Wl & ->).
    destruct (op_tree _ _ Oq Cq Hq) as (o & ->).
    destruct (IH y _ ltac:(lia) Oy Cy Hy) as (r & Wr & ->).
    exists (Op l o r). split; [now split|]. cbn [rtree]. cbn zeta. cbn [yield flat_map]. rewrite (rtree_yield l n Wl).
    rewrite !app_length, combine_length, seq_length, Nat.min_id. cbn [length]. repeat f_equal; lia.
  - apply akids1 in Hp. destruct Hp as (x & -> & Hx). apply aover1 in Ho. apply counted1 in Hc.
    destruct (tree_number _ x n (le_n _) Ho Hc Hx) as (ds & Wd & ->). exists (Num ds). now split.
Qed.

(** ** A tree belongs to one reading *)
Lemma ntree_inj : forall ds ds' n, digits_ok ds -> digits_ok ds' -> ntree ds n = ntree ds' n -> ds = ds'.
Proof.
  intros ds ds' n [H _] [H' _] E. apply (f_equal yield) in E. rewrite !ntree_yield in E by auto. apply (f_equal (map fst)) in E.
  rewrite !map_fst_combine in E by now rewrite seq_length. revert ds' E H' H. clear. induction ds as [|d ds IH]; intros [|d' ds'] E H' H; try easy.
  cbn in E. injection E as <- E. f_equal. destruct ds as [|e ds], ds' as [|e' ds']; try easy. apply IH; auto; discriminate.
Qed.
Lemma op_number_inj : forall o o', op_number o = op_number o' -> o = o'.
Proof. intros [] []; cbn; congruence. Qed.
Lemma rtree_inj : forall e e' n, reading_ok e -> reading_ok e' -> rtree e n = rtree e' n -> e = e'.
Proof.
  induction e as [ds|l IHl o r IHr]; intros [ds'|l' o' r'] n H H' E; cbn [rtree] in E; cbn zeta in E; try discriminate.
  - injection E as E. f_equal. now apply (ntree_inj ds ds' n).
  - destruct H as [H1 H2], H' as [H1' H2']. injection E as E1 E2 _ E3 E4. apply IHl in E1; auto. subst l'. apply IHr in E4; auto. subst r'.
    now rewrite (op_number_inj _ _ E2).
Qed.

(** ** The readings of a chain with at most two operators differ at the top *)
Definition is_op (s : sym) : bool := s <? 8.
Lemma count_ops : forall e, length (filter is_op (rtoks e)) = operators e.
Proof.
  induction e as [ds|l IHl o r IHr]; cbn [rtoks operators].
  - induction ds as [|d ds IH]; [reflexivity|]. exact IH.
  - rewrite filter_app, app_length. cbn [filter]. replace (is_op (4 + op_number o)) with true by now destruct o. cbn [length]. unfold sym in *. lia.
Qed.
Lemma digits_inj : forall a b : list nat, map (fun d => 8 + d) a = map (fun d => 8 + d) b -> a = b.
Proof. induction a as [|x a IH]; intros [|y b] E; try discriminate; [auto|]. cbn in E. injection E as <- E. f_equal. auto. Qed.
Lemma split_inj : forall a b o o' (x y : list sym), map (fun d => 8 + d) a ++ (4 + op_number o) :: x = map (fun d => 8 + d) b ++ (4 + op_number o') :: y ->
  a = b /\ o = o' /\ x = y.
Proof.
  induction a as [|d a IH]; intros [|d' b] o o' x y E.
  - cbn [map app] in E. injection E as E1 E2. split; [auto|]. split; [|auto]. now destruct o, o'.
  - exfalso. cbn [map app] in E. destruct o; discriminate.
  - exfalso. cbn [map app] in E. destruct o'; discriminate.
  - cbn [map app] in E. injection E as <- E. destruct (IH b o o' x y E) as (<- & <- & <-). auto.
Qed.
Lemma one_operator : forall e e', operators e <= 1 -> rtoks e = rtoks e' -> e = e'.
Proof.
  intros e e' H E. assert (C : operators e = operators e') by now rewrite <- !count_ops, E.
  destruct e as [ds|[ds|] o [ds2|]], e' as [ds'|[ds'|] o' [ds2'|]]; cbn [operators] in *; try lia.
  - f_equal. now apply digits_inj.
  - cbn [rtoks] in E. apply split_inj in E. destruct E as (<- & <- & E). apply digits_inj in E. now subst.
Qed.
Lemma two_operators : forall e e' n, reading_ok e -> reading_ok e' -> operators e <= 2 -> rtoks e = rtoks e' ->
  root_split (rtree e n) = root_split (rtree e' n) -> e = e'.
Proof.
  intros e e' n W W' H E S. assert (C : operators e = operators e') by now rewrite <- !count_ops, E.
  destruct e as [ds|l o r], e' as [ds'|l' o' r']; cbn [operators] in *; try lia.
  - apply one_operator; auto.
  - destruct W as [W1 W2], W' as [W1' W2']. cbn [rtree] in S. cbn zeta in S. cbn [root_split yield flat_map] in S.
    rewrite (rtree_yield l _ W1), (rtree_yield l' _ W1'), !app_length, !combine_length, !seq_length, !Nat.min_id in S. cbn [length] in S. injection S as S.
    cbn [rtoks] in E. assert (L : length (rtoks l) = length (rtoks l')) by lia. clear S.
    assert (X : rtoks l = rtoks l' /\ (4 + op_number o) :: rtoks r = (4 + op_number o') :: rtoks r').
    { revert E L. generalize (rtoks l), (rtoks l'). clear. induction l as [|x l IH]; intros [|y l'] E L; try discriminate; [auto|].
      cbn in E. injection E as <- E. cbn in L. destruct (IH l' E) as [<- ?]; [lia|]. auto. }
    destruct X as [X1 X2]. injection X2 as X2 X3.
    assert (l = l') by (apply one_operator; auto; lia). assert (r = r') by (apply one_operator; auto; lia).
    assert (o = o') by now destruct o, o'. congruence.
Qed.

(** ** The value of a tree *)
Notation fi := (g_forest_info amath_dg).
Definition aval : tree -> list (option Z) := value acalc fi (fun _ => [None]).
Lemma adigit_values : forall d n, d < 10 -> ev_leaf acalc (8 + d) n = Some (Z.of_nat d).
Proof. intros d n H. do 10 (destruct d as [|d]; [reflexivity|]). lia. Qed.
Lemma adigit_reduce2 : forall d a b, d < 10 -> reduce acalc fi (6 + 2 * d) [a; b] = [amath_product 6 [a; b]].
Proof. intros d a b H. do 10 (destruct d as [|d]; [reflexivity|]). lia. Qed.
Lemma adigit_reduce1 : forall d a, d < 10 -> reduce acalc fi (7 + 2 * d) (restore fi (fun _ => [None]) (7 + 2 * d) [a]) = [a].
Proof. intros d a H. do 10 (destruct d as [|d]; [destruct a; reflexivity|]). lia. Qed.

Lemma anumber_value : forall ds n, digits_ok ds -> aval (ntree ds n) = [weighted ds].
Proof.
  induction ds as [|d ds IH]; intros n [H1 H2]; [easy|]. inversion H2 as [|? ? Hd Hds]; subst.
  destruct ds as [|d' ds].
  - cbn [ntree]. unfold aval. cbn [value flat_map app]. rewrite (adigit_values d n Hd), adigit_reduce1; auto.
  - change (ntree (d :: d' :: ds) n) with (Node (6 + 2 * d) [Leaf (8 + d) n; ntree (d' :: ds) (S n)]).
    unfold aval. cbn [value flat_map]. change (value acalc fi (fun _ => [None]) (ntree (d' :: ds) (S n))) with (aval (ntree (d' :: ds) (S n))).
    rewrite IH by (split; [discriminate|auto]). rewrite (adigit_values d n Hd). cbn [app]. rewrite adigit_reduce2 by auto.
    change (weighted (d :: d' :: ds)) with (op32 Z.add (Some (Z.of_nat d * 10)%Z) (weighted (d' :: ds))). rewrite <- op_spec.
    unfold amath_product. unfold digit_number, arg. cbn [nth]. rewrite digit_times by auto.
    unfold strictly. cbn [forallb]. now destruct (weighted (d' :: ds)).
Qed.

Lemma aval_node1 : forall d x, aval (Node d [x]) = reduce acalc fi d (restore fi (fun _ => [None]) d (aval x)).
Proof. intros. unfold aval. cbn [value flat_map]. now rewrite app_nil_r. Qed.
Lemma aval_node2 : forall d x y, aval (Node d [x; y]) = reduce acalc fi d (aval x ++ aval y).
Proof. intros. unfold aval. cbn [value flat_map]. now rewrite app_nil_r. Qed.

Definition apply_i32 (o : operator) : option Z -> option Z -> option Z :=
  match o with Add => i32_op Z.add | Sub => i32_op Z.sub | Mul => i32_op Z.mul | Div => i32_div end.
Lemma apply_spec : forall o x y, apply32 o x y = apply_i32 o x y.
Proof. intros [] x y; cbn [apply32 apply_i32]; rewrite <- ?op_spec, <- ?div_spec; reflexivity. Qed.
Lemma op_value : forall o m, aval (Node (2 + op_number o) [Leaf (4 + op_number o) m]) = [Some (Z.of_nat (op_number o))].
Proof. intros [] m; vm_compute; reflexivity. Qed.
Lemma op_reduce : forall o x y, reduce acalc fi 0 ([x] ++ [Some (Z.of_nat (op_number o))] ++ [y]) = [apply_i32 o x y].
Proof.
  intros o x y. change (reduce acalc fi 0 ([x] ++ [Some (Z.of_nat (op_number o))] ++ [y])) with [amath_product 0 [x; Some (Z.of_nat (op_number o)); y]].
  f_equal. unfold amath_product, strictly, arg. cbn [nth forallb].
  destruct o, x as [x|], y as [y|]; try reflexivity; cbn [apply_i32 andb]; destruct y; reflexivity.
Qed.
Lemma rtree_value : forall e n, reading_ok e -> aval (rtree e n) = [reading_value weighted e].
Proof.
  induction e as [ds|l IHl o r IHr]; intros n H; cbn [rtree reading_value].
  - rewrite aval_node1, anumber_value by exact H. generalize (weighted ds). intros [z|]; reflexivity.
  - destruct H as [H1 H2]. cbn zeta. rewrite aval_node2, aval_node2, (IHl _ H1), (IHr _ H2), op_value, apply_spec.
    generalize (reading_value weighted l), (reading_value weighted r). intros x y.
    change (reduce acalc fi 28 ([x] ++ [Some (Z.of_nat (op_number o))])) with ([x] ++ [Some (Z.of_nat (op_number o))]).
    rewrite <- app_assoc. apply op_reduce.
Qed.

(** ** Tokens of a text *)
Definition achars : list ascii := list_ascii_of_string "+-*/0123456789".
Definition atok1 (ch : ascii) : res sym :=
  pos <- unwrap (find_char achars ch) ;; idx (seq 0 17) (pos + 3).
Definition achar_of (s : sym) : option ascii := if s <? 4 then None else nth_error achars (s - 4).
Definition is_atoken (ch : ascii) (s : sym) : Prop :=
  exists t, atok1 ch = Ret t /\ to_internal amath_dg t = Ret (Some s).
Lemma atok1_total : forall ch, (exists s, is_atoken ch s /\ achar_of s = Some ch /\ user_terminal amath 20 amath_wrap s) \/ atok1 ch = Panic.
Proof.
  intros ch. unfold is_atoken, atok1. destruct (find_char achars ch) as [pos|] eqn:E; [|now right].
  left. apply find_char_nth in E. exists (pos + 4).
  assert (L : pos < 14) by (change 14 with (length achars); apply nth_error_Some; congruence).
  split; [|split].
  - exists (pos + 3). cbn [unwrap bind]. do 14 (destruct pos as [|pos]; [split; reflexivity|]). lia.
  - unfold achar_of. replace (pos + 4 <? 4) with false by (symmetry; apply Nat.ltb_ge; lia). now replace (pos + 4 - 4) with pos by lia.
  - clear E. split; [lia|]. split; [|cbn; lia]. apply is_terminal_spec. do 14 (destruct pos as [|pos]; [reflexivity|]). lia.
Qed.
Lemma is_atoken_char : forall ch s, is_atoken ch s -> achar_of s = Some ch.
Proof. intros ch s (t & H1 & H2). destruct (atok1_total ch) as [(s' & (t' & A & B) & C & _)|X]; congruence. Qed.
Lemma atokens_inv : forall text syms, Forall2 is_atoken text syms -> forall text', Forall2 is_atoken text' syms -> text' = text.
Proof.
  induction 1 as [|ch s text syms H _ IH]; intros text' H'; inversion H' as [|ch' ? text2 ? A B]; subst; [auto|].
  f_equal; [|auto]. apply is_atoken_char in H, A. congruence.
Qed.
Lemma atokens_fun : forall text syms, Forall2 is_atoken text syms -> forall syms', Forall2 is_atoken text syms' -> syms' = syms.
Proof.
  induction 1 as [|ch s text syms (t & A & B) _ IH]; intros syms' H'; inversion H' as [|? s' ? l (t' & A' & B') F]; subst; [auto|].
  f_equal; [congruence|auto].
Qed.
Lemma atokens_mapped : forall text syms, Forall2 is_atoken text syms ->
  exists tokens, mapM atok1 text = Ret tokens /\ mapped amath_dg tokens syms.
Proof.
  induction 1 as [|ch s text syms (t & H1 & H2) _ (tokens & E & M)].
  - exists []. split; [reflexivity|constructor].
  - exists (t :: tokens). cbn [mapM]. rewrite H1. cbn [bind]. rewrite E. split; [reflexivity|now constructor].
Qed.
Lemma rtext_tokens : forall e, reading_ok e -> Forall2 is_atoken (reading_chars e) (rtoks e).
Proof.
  assert (T : forall ch s t, atok1 ch = Ret t -> to_internal amath_dg t = Ret (Some s) -> is_atoken ch s) by (intros ch s t A B; now exists t).
  induction e as [ds|l IHl o r IHr]; intros H; cbn [reading_chars rtoks].
  - destruct H as [_ H]. induction H as [|d ds Hd _ IH]; cbn [map]; constructor; auto.
    do 10 (destruct d as [|d]; [eapply T; reflexivity|]). lia.
  - destruct H as [H1 H2]. apply Forall2_app; [auto|]. constructor; [|auto]. destruct o; eapply T; reflexivity.
Qed.
Lemma atoken_user : forall text syms, Forall2 is_atoken text syms -> forall s, In s syms -> user_terminal amath 20 amath_wrap s.
Proof.
  induction 1 as [|ch s text syms (t & H1 & H2) _ IH]; intros s' Hs; [easy|]. destruct Hs as [<-|Hs]; [|auto].
  destruct (atok1_total ch) as [(s2 & (t2 & A & B) & _ & U)|X]; [|congruence]. rewrite A in H1. injection H1 as ->. congruence.
Qed.
Lemma same_text : forall e e', reading_ok e -> reading_ok e' -> (reading_text e = reading_text e' <-> rtoks e = rtoks e').
Proof.
  intros e e' H H'. pose proof (rtext_tokens e H) as A. pose proof (rtext_tokens e' H') as B. split; intros X.
  - apply (f_equal list_ascii_of_string) in X. unfold reading_text in X. rewrite !list_ascii_of_string_of_list_ascii in X. rewrite X in A.
    now apply (atokens_fun _ _ B).
  - unfold reading_text. f_equal. rewrite X in A. now apply (atokens_inv _ _ B).
Qed.

(** ** The trees of a text *)
Lemma reading_trees : forall syms, (forall s : sym, In s syms -> user_terminal amath 20 amath_wrap s) -> forall t,
  parse_tree R 1 t /\ yield t = numb 0 syms <-> exists e, reading_ok e /\ rtoks e = syms /\ t = rtree e 0.
Proof.
  intros syms Hu t. split.
  - intros [Ht Y].
    assert (O : aover t).
    { intros a v Ha. rewrite Y in Ha. apply in_combine_l in Ha. apply is_terminal_spec. apply (Hu a Ha). }
    assert (C : counted 0 t).
    { unfold counted. rewrite Y, map_snd_combine; [|now rewrite seq_length]. now rewrite combine_length, seq_length, Nat.min_id. }
    destruct (tree_reading (size t) t 0 (le_n _) O C Ht) as (e & He & ->). exists e. split; [auto|]. split; [|auto].
    rewrite (rtree_yield e 0 He) in Y. apply (f_equal (map fst)) in Y. now rewrite !map_fst_combine in Y by now rewrite seq_length.
  - intros (e & He & <- & ->). split; [now apply rtree_ok|now apply rtree_yield].
Qed.

Lemma amath_ordered : ordered_grammar amath.
Proof.
  split; [exact amath_sorted|]. intros r B Hr E Ht. apply In_nth_error in Hr. destruct Hr as [d Hd]. apply in_atable in Hd. rewrite E in Hd.
  vm_compute in Hd.
  assert (T : is_terminal R B = true \/ (p_lhs r = 1 /\ B = 3)).
  { repeat (destruct Hd as [Hd|Hd]; [try discriminate; injection Hd as _ El Eb; rewrite <- Eb; auto|]). easy. }
  destruct T as [T|[-> ->]]; [elim Ht; now apply is_terminal_spec|lia].
Qed.
Lemma amath_wrapped_once : wrapped_once amath amath_wrap 20 27.
Proof.
  intros d. split.
  - intros (r & Hd & Hl & Hr). apply in_atable in Hd. rewrite Hl, Hr in Hd. vm_compute in Hd.
    repeat (destruct Hd as [Hd|Hd]; [try discriminate; now injection Hd|]). easy.
  - intros ->. eexists. split; [reflexivity|]. split; reflexivity.
Qed.
Lemma acalc_pushes : pushes acalc (fun _ => None).
Proof. intros s results. now exists []. Qed.
Lemma acalc_nulls : nulls_ok fi (fun _ => None : option Z) (fun _ => [None]).
Proof. intros s. reflexivity. Qed.
Lemma acalc_acyclic : nulling_acyclic fi.
Proof. exists (fun _ => 0). intros lhs a b H. destruct H. Qed.

Lemma amath_calculate : forall E (ev : evaluator E) P fuel input, calculate amath_tokenize ev P amath_dg fuel input =
  (tokens <- mapM atok1 (list_ascii_of_string input) ;; parse_and_evaluate ev P amath_dg fuel tokens).
Proof. reflexivity. Qed.

(** trees to readings *)
Lemma readings_of : forall ts, (forall t, In t ts -> exists e, reading_ok e /\ t = rtree e 0) ->
  exists es, ts = map (fun e => rtree e 0) es /\ Forall reading_ok es.
Proof.
  induction ts as [|t ts IH]; intros H; [exists []; now split|]. destruct (H t (or_introl eq_refl)) as (e & He & ->).
  destruct IH as (es & -> & Hes); [intros; apply H; now right|]. exists (e :: es). split; [auto|now constructor].
Qed.

Lemma P_ambiguous : forall P e, LEO P = false -> reading_ok e -> operators e <= 2 ->
  exists fuel0 es, NoDup es /\ (forall e', In e' es <-> reading_ok e' /\ reading_text e' = reading_text e) /\
    forall fuel, fuel0 <= fuel ->
      calculate amath_tokenize acalc P amath_dg fuel (reading_text e) = Ret (map (reading_value weighted) es).
Proof.
  intros P e HL He Hops. pose proof (rtext_tokens e He) as HT. destruct (atokens_mapped _ _ HT) as (tokens & E & M).
  destruct (bocage_new fi) as [b0| |] eqn:Hb; try discriminate. destruct (cbocage_new fi) as [cb0| |] eqn:Hcb; try discriminate.
  pose proof (reading_trees (rtoks e) (atoken_user _ _ HT)) as Trees.
  destruct (P_client_values P amath 20 amath_wrap 26 20 amath_dg HL amath_built acalc (fun _ => None) (fun _ => [None]) acalc_pushes acalc_nulls
    acalc_acyclic amath_ordered (ex_intro _ 27 amath_wrapped_once) b0 cb0 Hb Hcb tokens (rtoks e) M (atoken_user _ _ HT)) as (fuel0 & us & Hnd & Hus & Hev).
  { destruct e as [[|]|]; cbn [rtoks]; [now destruct He|discriminate|]. intros X. now apply app_eq_nil in X. }
  { exists (rtree e 0). apply Trees. eauto. }
  { intros t t' A B S. apply Trees in A, B. destruct A as (e1 & H1 & T1 & ->), B as (e2 & H2 & T2 & ->).
    replace e2 with e1; [reflexivity|]. apply (two_operators e1 e2 0); auto; [|congruence].
    rewrite <- count_ops, T1, count_ops. exact Hops. }
  destruct (readings_of us) as (es & -> & Hes).
  { intros t Ht. apply Hus, Trees in Ht. destruct Ht as (e' & A & _ & B). eauto. }
  exists fuel0, es. split; [now apply NoDup_map_inv in Hnd|]. split.
  - intros e'. split.
    + intros Hin. assert (He' : reading_ok e') by (rewrite Forall_forall in Hes; auto). split; [auto|]. apply same_text; auto.
      destruct (proj1 (Trees _) (proj1 (Hus _) (in_map (fun e => rtree e 0) _ _ Hin))) as (e2 & A & B & C). apply rtree_inj in C; auto. now subst.
    + intros [He' X]. apply same_text in X; auto.
      assert (Y : In (rtree e' 0) (map (fun e => rtree e 0) es)) by (apply Hus, Trees; eauto).
      apply in_map_iff in Y. destruct Y as (e2 & C & Hin). apply rtree_inj in C; auto; [now subst|]. rewrite Forall_forall in Hes. auto.
  - intros fuel Hf. rewrite amath_calculate. unfold reading_text. rewrite list_ascii_of_string_of_list_ascii, E. cbn [bind]. rewrite (Hev fuel Hf). f_equal.
    clear - Hes. induction Hes as [|e es He _ IH]; [reflexivity|]. cbn [map concat].
    change (value acalc fi (fun _ => [None]) (rtree e 0)) with (aval (rtree e 0)). rewrite (rtree_value e 0 He). cbn [app]. now f_equal.
Qed.

Lemma P_ambiguous_rejects : forall E (ev : evaluator E) P input, LEO P = false -> (forall e, reading_ok e -> reading_text e <> input) ->
  exists fuel0, forall fuel, fuel0 <= fuel -> calculate amath_tokenize ev P amath_dg fuel input = Panic.
Proof.
  intros E ev P input HL Hn. setoid_rewrite amath_calculate.
  assert (X : (exists syms, Forall2 is_atoken (list_ascii_of_string input) syms) \/ mapM atok1 (list_ascii_of_string input) = Panic).
  { generalize (list_ascii_of_string input). induction l as [|ch l IH]; [left; now exists []|]. cbn [mapM].
    destruct (atok1_total ch) as [(s & T & _)| -> ]; [|now right]. destruct T as (t & A & B). rewrite A. cbn [bind].
    destruct IH as [[syms IH] | ->]; [|now right]. left. exists (s :: syms). constructor; [now exists t|auto]. }
  destruct X as [[syms HT] | ->]; [|now exists 0]. destruct (atokens_mapped _ _ HT) as (tokens & -> & M). cbn [bind].
  destruct (bocage_new fi) as [b0| |] eqn:Hb; try discriminate.
  eapply P_client_rejects with (c := amath); eauto.
  - exact amath_built.
  - exact (atoken_user _ _ HT).
  - intros [[_ (r & Hr & El & Er)] | [_ HD]].
    + apply In_nth_error in Hr. destruct Hr as [d Hd]. apply in_atable in Hd. rewrite El, Er in Hd. vm_compute in Hd.
      repeat (destruct Hd as [Hd|Hd]; [discriminate|]). easy.
    + destruct (proj1 (derives_tree (c_rules amath)) _ _ HD (numb 0 syms)) as (t & Ht & Y); [apply map_fst_combine; now rewrite seq_length|].
      destruct (proj1 (reading_trees syms (atoken_user _ _ HT) t) (conj Ht Y)) as (e & He & <- & _).
      apply (Hn e He). unfold reading_text. rewrite <- (atokens_inv _ _ (rtext_tokens e He) _ HT). apply string_of_list_ascii_of_string.
Qed.

(** ** Numbers of at most two digits *)
Lemma reading_value_ext : forall (Q : list nat -> Prop) f g, (forall ds, Q ds -> f ds = g ds) ->
  forall e, reading_numbers Q e -> reading_value f e = reading_value g e.
Proof.
  intros Q f g H. induction e as [ds|l IHl o r IHr]; cbn [reading_numbers reading_value]; [auto|]. intros [A B]. now rewrite IHl, IHr.
Qed.

(** readings of the same text have numbers of the same lengths: here by the bound [k] *)
Fixpoint runs (l : list sym) (n : nat) : list nat :=
  match l with
  | [] => [n]
  | s :: l => if is_op s then n :: runs l 0 else runs l (S n)
  end.
Lemma runs_reading : forall k e, reading_numbers (fun ds => length ds <= k) e <-> Forall (fun n => n <= k) (runs (rtoks e) 0).
Proof.
  intros k.
  assert (D : forall ds n l, runs (map (fun d => 8 + d) ds ++ l) n = runs l (n + length ds)).
  { induction ds as [|d ds IH]; intros n l; cbn [map app length]; [now rewrite Nat.add_0_r|].
    change (runs ((8 + d) :: map (fun d => 8 + d) ds ++ l) n) with (runs (map (fun d => 8 + d) ds ++ l) (S n)). rewrite IH. f_equal. lia. }
  assert (X : forall e, exists ns, (forall s l, is_op s = true -> runs (rtoks e ++ s :: l) 0 = ns ++ runs l 0) /\ runs (rtoks e) 0 = ns /\
     (reading_numbers (fun ds => length ds <= k) e <-> Forall (fun n => n <= k) ns)).
  { induction e as [ds|l (nl & Hl & El & Al) o r (nr & Hr & Er & Ar)]; cbn [rtoks reading_numbers].
    - exists [length ds]. split; [|split].
      + intros s l Hs. rewrite D. cbn [runs]. now rewrite Hs.
      + rewrite <- (app_nil_r (map _ ds)), D. reflexivity.
      + split; [intros; repeat constructor; auto|]. intros H. now inversion H.
    - assert (Ho : is_op (4 + op_number o) = true) by now destruct o.
      exists (nl ++ nr). split; [|split].
      + intros s l' Hs. rewrite <- app_assoc. cbn [app]. rewrite (Hl _ _ Ho), (Hr _ _ Hs). now rewrite app_assoc.
      + now rewrite (Hl _ _ Ho), Er.
      + rewrite Forall_app, Al, Ar. tauto. }
  intros e. destruct (X e) as (ns & _ & -> & H). exact H.
Qed.

Lemma reading_numbers_and : forall (Q Q' : list nat -> Prop) e, reading_numbers (fun ds => Q ds /\ Q' ds) e <-> reading_numbers Q e /\ reading_numbers Q' e.
Proof. intros Q Q'. induction e as [ds|l IHl o r IHr]; cbn [reading_numbers]; tauto. Qed.

Lemma P_ambiguous_small : forall P e, LEO P = false -> reading_numbers (fun ds => digits_ok ds /\ length ds <= 2) e -> operators e <= 2 ->
  exists fuel0 es, NoDup es /\ (forall e', In e' es <-> reading_ok e' /\ reading_text e' = reading_text e) /\
    forall fuel, fuel0 <= fuel ->
      calculate amath_tokenize acalc P amath_dg fuel (reading_text e) = Ret (map (reading_value (fun ds => fit32 (decimal ds))) es).
Proof.
  intros P e HL He Hops. apply reading_numbers_and in He. destruct He as [He Hk].
  destruct (P_ambiguous P e HL He Hops) as (fuel0 & es & Hnd & Hes & H). exists fuel0, es. split; [auto|]. split; [auto|].
  intros fuel Hf. rewrite (H fuel Hf). f_equal. apply map_ext_in. intros e' Hin. apply Hes in Hin. destruct Hin as [He' X].
  apply (reading_value_ext (fun ds => digits_ok ds /\ length ds <= 2)); [intros ds []; now apply weighted_small|].
  apply reading_numbers_and. split; [exact He'|]. apply runs_reading. apply same_text in X; auto. rewrite X. now apply runs_reading.
Qed.

(** every reading is a tree, whatever the number of operators, and has the value *)
Lemma P_reading_trees : forall e, reading_ok e -> exists syms,
  (exists tokens, amath_tokenize (reading_text e) = Ret tokens /\ mapped amath_dg tokens syms) /\
  (forall s, In s syms -> user_terminal amath 20 amath_wrap s) /\
  exists tree_of : reading -> tree,
    (forall t, parse_tree (c_rules amath) (w_inner amath_wrap) t /\ yield t = combine syms (seq 0 (length syms)) <->
       exists e', reading_ok e' /\ reading_text e' = reading_text e /\ t = tree_of e') /\
    (forall e1 e2, reading_ok e1 -> reading_ok e2 -> tree_of e1 = tree_of e2 -> e1 = e2) /\
    forall e', reading_ok e' -> value acalc fi (fun _ => [None]) (tree_of e') = [reading_value weighted e'].
Proof.
  intros e He. pose proof (rtext_tokens e He) as HT. destruct (atokens_mapped _ _ HT) as (tokens & E & M).
  exists (rtoks e). split; [exists tokens|].
  { split; [|auto]. unfold amath_tokenize, tokenize_math, reading_text. now rewrite list_ascii_of_string_of_list_ascii. }
  split; [exact (atoken_user _ _ HT)|]. exists (fun e => rtree e 0). split; [|split].
  - intros t. change (w_inner amath_wrap) with 1. rewrite (reading_trees _ (atoken_user _ _ HT)). split.
    + intros (e' & A & B & C). exists e'. split; [auto|]. split; [now apply same_text|auto].
    + intros (e' & A & B & C). exists e'. split; [auto|]. split; [now apply same_text|auto].
  - intros e1 e2 A B. now apply rtree_inj.
  - intros e' A. now apply rtree_value.
Qed.

(** texts that are no chain *)
Lemma not_a_reading : forall e, reading_ok e -> reading_text e <> "1+"%string.
Proof.
  intros e He E. apply (f_equal list_ascii_of_string) in E. unfold reading_text in E. rewrite list_ascii_of_string_of_list_ascii in E.
  assert (X : forall e, reading_ok e -> exists l d, d < 10 /\ reading_chars e = l ++ [digit_char d]).
  { clear. induction e as [ds|l IHl o r IHr]; intros H; cbn [reading_chars].
    - destruct H as [H1 H2]. destruct (exists_last H1) as (l & d & ->). exists (map digit_char l), d. split; [|now rewrite map_app].
      apply Forall_app in H2. destruct H2 as [_ H2]. now inversion H2.
    - destruct H as [_ H]. destruct (IHr H) as (x & d & Hd & ->). exists (reading_chars l ++ operator_char o :: x), d. split; [auto|].
      now rewrite <- app_assoc. }
  destruct (X e He) as (l & d & Hd & F). rewrite F in E. change (list_ascii_of_string "1+") with (["1"%char] ++ ["+"%char]) in E.
  apply app_inj_tail in E. destruct E as [_ E]. clear - Hd E. do 10 (destruct d as [|d]; [vm_compute in E; discriminate|]). lia.
Qed.

(** ** All readings of a chain, for a concrete one *)
Definition op_of (s : sym) : option operator :=
  match s with 4 => Some Add | 5 => Some Sub | 6 => Some Mul | 7 => Some Div | _ => None end.
Fixpoint all_readings (k : nat) (l : list sym) : list reading :=
  match k with
  | 0 => []
  | S k =>
      Num (map (fun s => s - 8) l) ::
      flat_map (fun i =>
        match nth_error l i with
        | Some s => match op_of s with
                    | Some o => flat_map (fun a => map (Op a o) (all_readings k (skipn (S i) l))) (all_readings k (firstn i l))
                    | None => []
                    end
        | None => []
        end) (seq 0 (length l))
  end.
Lemma all_readings_complete : forall k e, operators e < k -> In e (all_readings k (rtoks e)).
Proof.
  induction k as [|k IH]; intros e H; [lia|]. cbn [all_readings]. destruct e as [ds|l o r]; cbn [rtoks operators] in *.
  - left. f_equal. rewrite map_map. rewrite <- (map_id ds) at 2. apply map_ext. intros d. lia.
  - right. apply in_flat_map. exists (length (rtoks l)). split.
    + apply in_seq. rewrite app_length. cbn [length]. lia.
    + rewrite nth_error_app2, Nat.sub_diag by lia. cbn [nth_error]. replace (op_of (4 + op_number o)) with (Some o) by now destruct o.
      apply in_flat_map. exists l. split.
      * rewrite firstn_app, firstn_all, Nat.sub_diag, firstn_O, app_nil_r. apply IH. lia.
      * apply in_map. replace (skipn (S (length (rtoks l))) (rtoks l ++ 4 + op_number o :: rtoks r)) with (rtoks r); [apply IH; lia|].
        rewrite skipn_app, skipn_all2, Nat.sub_succ_l, Nat.sub_diag by lia. reflexivity.
Qed.

Lemma P_wrong_value : let e := Op (Op (Op (Num [1]) Sub (Num [0])) Sub (Num [1])) Mul (Num [5]) in
  reading_ok e /\ reading_text e = "1-0-1*5"%string /\
  calculate amath_tokenize acalc default_perf amath_dg 600 (reading_text e) = Ret [Some 6; Some 4; Some (-4)]%Z /\
  forall e', reading_ok e' -> reading_text e' = reading_text e -> reading_value (fun ds => fit32 (decimal ds)) e' <> Some 4%Z.
Proof.
  cbn zeta. set (e := Op _ _ _). assert (He : reading_ok e).
  { cbn. unfold digits_ok. repeat split; try discriminate; repeat constructor. }
  split; [auto|]. split; [reflexivity|]. split; [vm_compute; reflexivity|]. intros e' He' X. apply same_text in X; auto.
  assert (C : operators e' < 4) by (rewrite <- count_ops, X; vm_compute; repeat constructor).
  apply all_readings_complete in C. rewrite X in C.
  assert (B : forallb (fun e' => match reading_value (fun ds => fit32 (decimal ds)) e' with Some 4%Z => false | _ => true end)
    (all_readings 4 (rtoks e)) = true) by (vm_compute; reflexivity).
  rewrite forallb_forall in B. apply B in C. intros V. rewrite V in C. discriminate.
Qed.
