(** MathProofs: the example calculator computes arithmetic values. *)
From Coq Require Import String Ascii List Arith Bool ZArith Lia.
From Verif Require Import Base BaseProofs Item Grammar DefaultGrammar Forest Recognizer Parse SimpleBocage Spec SpecFacts CfgSpec ClientSpec
  EvalSpec TreeSpec Check ExampleMath MathTables MathSpec PropLemmas7.
Import ListNotations.
Local Open Scope res_scope.
Local Open Scope list_scope.

Scheme sum_mut := Induction for sum Sort Prop
  with product_mut := Induction for product Sort Prop
  with factor_mut := Induction for factor Sort Prop.
Combined Scheme math_ind from sum_mut, product_mut, factor_mut.

(** ** The tokens, as internal symbols *)
Fixpoint sum_toks (s : sum) : list sym :=
  match s with
  | Prod p => product_toks p
  | Plus s p => sum_toks s ++ 5 :: product_toks p
  | Minus s p => sum_toks s ++ 6 :: product_toks p
  end
with product_toks (p : product) : list sym :=
  match p with
  | Fact f => factor_toks f
  | Times p f => product_toks p ++ 7 :: factor_toks f
  | Over p f => product_toks p ++ 8 :: factor_toks f
  end
with factor_toks (f : factor) : list sym :=
  match f with
  | Number ds => map (fun d => 11 + d) ds
  | Paren s => 9 :: sum_toks s ++ [10]
  end.

(** ** Reading the tokens back: the expression is determined by its tokens *)
Definition mk_prod (po : option (product * bool)) (f : factor) : product :=
  match po with None => Fact f | Some (p, true) => Times p f | Some (p, false) => Over p f end.
Definition mk_sum (so : option (sum * bool)) (p : product) : sum :=
  match so with None => Prod p | Some (s, true) => Plus s p | Some (s, false) => Minus s p end.
Definition split_prod (p : product) : option (product * bool) * factor :=
  match p with Fact f => (None, f) | Times p f => (Some (p, true), f) | Over p f => (Some (p, false), f) end.
Definition split_sum (s : sum) : option (sum * bool) * product :=
  match s with Prod p => (None, p) | Plus s p => (Some (s, true), p) | Minus s p => (Some (s, false), p) end.

Definition frame := (option (sum * bool) * option (product * bool))%type.
(** pending frames, current frame, pending factor *)
Definition rstate := (list frame * frame * option factor)%type.

Definition read1 (st : rstate) (t : sym) : option rstate :=
  let '(stk, fr, o) := st in
  match o with
  | None =>
      if t =? 9 then Some (fr :: stk, (None, None), None)
      else if 11 <=? t then Some (stk, fr, Some (Number [t - 11]))
      else None
  | Some f =>
      let p := mk_prod (snd fr) f in
      let s := mk_sum (fst fr) p in
      if t =? 5 then Some (stk, (Some (s, true), None), None)
      else if t =? 6 then Some (stk, (Some (s, false), None), None)
      else if t =? 7 then Some (stk, (fst fr, Some (p, true)), None)
      else if t =? 8 then Some (stk, (fst fr, Some (p, false)), None)
      else if t =? 10 then match stk with fr' :: stk => Some (stk, fr', Some (Paren s)) | [] => None end
      else if 11 <=? t then match f with Number ds => Some (stk, fr, Some (Number (ds ++ [t - 11]))) | _ => None end
      else None
  end.
Fixpoint read (ts : list sym) (st : rstate) : option rstate :=
  match ts with
  | [] => Some st
  | t :: ts => match read1 st t with Some st => read ts st | None => None end
  end.

Lemma read_app : forall a b st, read (a ++ b) st = match read a st with Some st => read b st | None => None end.
Proof. induction a as [|t a IH]; intros b st; [reflexivity|]. cbn. destruct (read1 st t); auto. Qed.

Lemma read_digits : forall ds stk fr pre, read (map (fun d => 11 + d) ds) (stk, fr, Some (Number pre)) = Some (stk, fr, Some (Number (pre ++ ds))).
Proof.
  induction ds as [|d ds IH]; intros stk fr pre; [now rewrite app_nil_r|].
  cbn [map read]. replace (read1 (stk, fr, Some (Number pre)) (11 + d)) with (Some (stk, fr, Some (Number (pre ++ [d])))).
  - rewrite IH, <- app_assoc. reflexivity.
  - cbn. repeat f_equal. lia.
Qed.

Definition after_product (stk : list frame) (so : option (sum * bool)) (p : product) : rstate :=
  (stk, (so, fst (split_prod p)), Some (snd (split_prod p))).
Definition after_sum (stk : list frame) (s : sum) : rstate := after_product stk (fst (split_sum s)) (snd (split_sum s)).

Lemma mk_split_prod : forall p, mk_prod (fst (split_prod p)) (snd (split_prod p)) = p.
Proof. now intros []. Qed.
Lemma mk_split_sum : forall s, mk_sum (fst (split_sum s)) (snd (split_sum s)) = s.
Proof. now intros []. Qed.

Lemma read_back :
  (forall s, sum_numbers digits_ok s -> forall stk, read (sum_toks s) (stk, (None, None), None) = Some (after_sum stk s)) /\
  (forall p, product_numbers digits_ok p -> forall stk so, read (product_toks p) (stk, (so, None), None) = Some (after_product stk so p)) /\
  (forall f, factor_numbers digits_ok f -> forall stk fr, read (factor_toks f) (stk, fr, None) = Some (stk, fr, Some f)).
Proof.
  apply math_ind; cbn [sum_numbers product_numbers factor_numbers sum_toks product_toks factor_toks].
  - intros p IH H stk. rewrite (IH H). reflexivity.
  - intros s IHs p IHp [H1 H2] stk. rewrite read_app, (IHs H1). unfold after_sum, after_product. cbn [read read1].
    cbn [Nat.eqb fst snd]. rewrite mk_split_prod, mk_split_sum. rewrite (IHp H2). reflexivity.
  - intros s IHs p IHp [H1 H2] stk. rewrite read_app, (IHs H1). unfold after_sum, after_product. cbn [read read1].
    cbn [Nat.eqb fst snd]. rewrite mk_split_prod, mk_split_sum. rewrite (IHp H2). reflexivity.
  - intros f IH H stk so. rewrite (IH H). reflexivity.
  - intros p IHp f IHf [H1 H2] stk so. rewrite read_app, (IHp H1). unfold after_product. cbn [read read1].
    cbn [Nat.eqb fst snd]. rewrite mk_split_prod. rewrite (IHf H2). reflexivity.
  - intros p IHp f IHf [H1 H2] stk so. rewrite read_app, (IHp H1). unfold after_product. cbn [read read1].
    cbn [Nat.eqb fst snd]. rewrite mk_split_prod. rewrite (IHf H2). reflexivity.
  - intros ds [H _] stk fr. destruct ds as [|d ds]; [now elim H|]. cbn [map read].
    replace (read1 (stk, fr, None) (11 + d)) with (Some (stk, fr, Some (Number [d]))) by (cbn; now rewrite Nat.sub_0_r).
    now rewrite read_digits.
  - intros s IH H stk fr. cbn [read read1]. cbn [Nat.eqb]. rewrite read_app, (IH H). unfold after_sum, after_product. cbn [read read1].
    cbn [Nat.eqb fst snd]. now rewrite mk_split_prod, mk_split_sum.
Qed.

Lemma sum_toks_inj : forall s1 s2, expression s1 -> expression s2 -> sum_toks s1 = sum_toks s2 -> s1 = s2.
Proof.
  intros s1 s2 H1 H2 E. pose proof (proj1 read_back s1 H1 []) as A. rewrite E, (proj1 read_back s2 H2 []) in A.
  unfold after_sum, after_product in A. injection A as A B C. symmetry.
  rewrite <- (mk_split_sum s1), <- (mk_split_sum s2), <- (mk_split_prod (snd (split_sum s1))), <- (mk_split_prod (snd (split_sum s2))). congruence.
Qed.

(** ** The tree of an expression whose first token has number [n] *)
Fixpoint number_tree (ds : list nat) (n : nat) : tree :=
  match ds with
  | [] => Leaf 0 n
  | d :: ds =>
      match ds with
      | [] => Node (9 + 2 * d) [Leaf (11 + d) n]
      | _ => Node (8 + 2 * d) [Leaf (11 + d) n; number_tree ds (S n)]
      end
  end.
Fixpoint sum_tree (s : sum) (n : nat) : tree :=
  match s with
  | Prod p => Node 2 [product_tree p n]
  | Plus s p => let m := n + length (sum_toks s) in Node 0 [Node 30 [sum_tree s n; Leaf 5 m]; product_tree p (S m)]
  | Minus s p => let m := n + length (sum_toks s) in Node 1 [Node 31 [sum_tree s n; Leaf 6 m]; product_tree p (S m)]
  end
with product_tree (p : product) (n : nat) : tree :=
  match p with
  | Fact f => Node 5 [factor_tree f n]
  | Times p f => let m := n + length (product_toks p) in Node 3 [Node 32 [product_tree p n; Leaf 7 m]; factor_tree f (S m)]
  | Over p f => let m := n + length (product_toks p) in Node 4 [Node 33 [product_tree p n; Leaf 8 m]; factor_tree f (S m)]
  end
with factor_tree (f : factor) (n : nat) : tree :=
  match f with
  | Number ds => Node 7 [number_tree ds n]
  | Paren s => Node 6 [Node 34 [Leaf 9 n; sum_tree s (S n)]; Leaf 10 (S n + length (sum_toks s))]
  end.

Notation numb n ts := (combine ts (seq n (length ts))).
Lemma numb_app : forall (a b : list sym) n, numb n (a ++ b) = numb n a ++ numb (n + length a) b.
Proof.
  induction a as [|x a IH]; intros b n; cbn [app length seq combine].
  - now rewrite Nat.add_0_r.
  - rewrite IH. now rewrite <- Nat.add_succ_comm.
Qed.

Lemma number_tree_yield : forall ds n, ds <> [] -> yield (number_tree ds n) = numb n (map (fun d => 11 + d) ds).
Proof.
  induction ds as [|d ds IH]; intros n H; [easy|]. destruct ds as [|d' ds]; [reflexivity|].
  change (number_tree (d :: d' :: ds) n) with (Node (8 + 2 * d) [Leaf (11 + d) n; number_tree (d' :: ds) (S n)]).
  cbn [yield flat_map]. rewrite IH by discriminate. cbn. now rewrite app_nil_r.
Qed.

Ltac numbs := repeat (rewrite ?numb_app, ?app_nil_r, <- ?app_assoc, ?app_length; cbn [app length seq combine map]);
  repeat rewrite Nat.add_succ_r; rewrite ?Nat.add_0_r; try reflexivity.

Lemma trees_yield :
  (forall s, sum_numbers digits_ok s -> forall n, yield (sum_tree s n) = numb n (sum_toks s)) /\
  (forall p, product_numbers digits_ok p -> forall n, yield (product_tree p n) = numb n (product_toks p)) /\
  (forall f, factor_numbers digits_ok f -> forall n, yield (factor_tree f n) = numb n (factor_toks f)).
Proof.
  apply math_ind; cbn [sum_numbers product_numbers factor_numbers sum_toks product_toks factor_toks sum_tree product_tree factor_tree].
  - intros p IH H n. cbn. now rewrite app_nil_r, IH.
  - intros s IHs p IHp [H1 H2] n. cbn zeta. cbn [yield flat_map]. rewrite (IHs H1), (IHp H2). numbs.
  - intros s IHs p IHp [H1 H2] n. cbn zeta. cbn [yield flat_map]. rewrite (IHs H1), (IHp H2). numbs.
  - intros p IH H n. cbn. now rewrite app_nil_r, IH.
  - intros s IHs p IHp [H1 H2] n. cbn zeta. cbn [yield flat_map]. rewrite (IHs H1), (IHp H2). numbs.
  - intros s IHs p IHp [H1 H2] n. cbn zeta. cbn [yield flat_map]. rewrite (IHs H1), (IHp H2). numbs.
  - intros ds [H _] n. cbn [yield flat_map]. rewrite app_nil_r. now apply number_tree_yield.
  - intros s IH H n. cbn [yield flat_map]. rewrite (IH H). numbs.
Qed.

Notation R := (c_rules prec).
Lemma digit_rules : forall d, d < 10 ->
  nth_error R (8 + 2 * d) = Some (plain_rule 4 [11 + d; 4] (Some (8 + 2 * d))) /\
  nth_error R (9 + 2 * d) = Some (plain_rule 4 [11 + d] (Some (9 + 2 * d))).
Proof. intros d H. do 10 (destruct d as [|d]; [split; reflexivity|]). lia. Qed.

Lemma number_tree_ok : forall ds n, digits_ok ds -> parse_tree R 4 (number_tree ds n).
Proof.
  induction ds as [|d ds IH]; intros n [H1 H2]; [easy|]. inversion H2 as [|? ? Hd Hds]; subst. destruct (digit_rules d Hd) as [E1 E2].
  destruct ds as [|d' ds].
  - apply (pt_node R _ _ _ E2). repeat constructor.
  - change (number_tree (d :: d' :: ds) n) with (Node (8 + 2 * d) [Leaf (11 + d) n; number_tree (d' :: ds) (S n)]).
    apply (pt_node R _ _ _ E1). cbn. repeat constructor. apply IH. split; [discriminate|auto].
Qed.

Ltac node d := let r := eval vm_compute in (nth_error R d) in
  match r with Some ?r => refine (pt_node R d r _ _ _); [vm_compute; reflexivity|cbn [p_rhs plain_rule]] end.
Ltac kids := repeat first [assumption | apply pt_leaf | apply pts_nil | apply pts_cons].

Lemma trees_ok :
  (forall s, sum_numbers digits_ok s -> forall n, parse_tree R 1 (sum_tree s n)) /\
  (forall p, product_numbers digits_ok p -> forall n, parse_tree R 2 (product_tree p n)) /\
  (forall f, factor_numbers digits_ok f -> forall n, parse_tree R 3 (factor_tree f n)).
Proof.
  apply math_ind; cbn [sum_numbers product_numbers factor_numbers sum_tree product_tree factor_tree].
  - intros p IH H n. node 2. kids; auto.
  - intros s IHs p IHp [H1 H2] n. cbn zeta. node 0. kids; auto. node 30. kids; auto.
  - intros s IHs p IHp [H1 H2] n. cbn zeta. node 1. kids; auto. node 31. kids; auto.
  - intros f IH H n. node 5. kids; auto.
  - intros s IHs p IHp [H1 H2] n. cbn zeta. node 3. kids; auto. node 32. kids; auto.
  - intros s IHs p IHp [H1 H2] n. cbn zeta. node 4. kids; auto. node 33. kids; auto.
  - intros ds H n. node 7. kids. now apply number_tree_ok.
  - intros s IH H n. node 6. kids; auto. node 34. kids; auto.
Qed.

(** ** Every parse tree of numbered terminals is the tree of an expression *)
Definition over_terminals (t : tree) : Prop := forall s v, In (s, v) (yield t) -> is_terminal R s = true.
Definition counted (n : nat) (t : tree) : Prop := map snd (yield t) = seq n (length (yield t)).

(** a rule, its left-hand side, its right-hand side *)
Definition prec_table : list (nat * (sym * list sym)) :=
  Eval vm_compute in combine (seq 0 35) (map (fun r => (p_lhs r, p_rhs r)) R).
Lemma in_table : forall d r, nth_error R d = Some r -> In (d, (p_lhs r, p_rhs r)) prec_table.
Proof.
  intros d r H. change prec_table with (combine (seq 0 35) (map (fun r => (p_lhs r, p_rhs r)) R)).
  assert (X : forall k (l : list prule) d, nth_error l d = Some r ->
     In (k + d, (p_lhs r, p_rhs r)) (combine (seq k (length l)) (map (fun r => (p_lhs r, p_rhs r)) l))).
  { intros k l. revert k. induction l as [|a l IH]; intros k [|d0] E; try discriminate; cbn [length seq combine map].
    - injection E as ->. rewrite Nat.add_0_r. now left.
    - right. replace (k + S d0) with (S k + d0) by lia. now apply IH. }
  exact (X 0 R d H).
Qed.
Definition rules_of (s : sym) : list (nat * list sym) :=
  map (fun x => (fst x, snd (snd x))) (filter (fun x => fst (snd x) =? s) prec_table).
Lemma tree_rule : forall s d ts, parse_tree R s (Node d ts) -> exists rhs, In (d, rhs) (rules_of s) /\ parse_trees R rhs ts.
Proof.
  intros s d ts H. inversion H as [|? r ? E Hp]; subst. exists (p_rhs r). split; [|auto].
  apply in_table in E. unfold rules_of. apply in_map_iff. exists (d, (p_lhs r, p_rhs r)). split; [auto|].
  apply filter_In. split; [auto|]. apply Nat.eqb_refl.
Qed.

Fixpoint size (t : tree) : nat := match t with Leaf _ _ => 1 | Node _ ts => S (list_sum (map size ts)) end.

Lemma kids1 : forall a ts, parse_trees R [a] ts -> exists x, ts = [x] /\ parse_tree R a x.
Proof. intros a ts H. inversion H as [|? ? x ? Hx Hr]; subst. inversion Hr; subst. eauto. Qed.
Lemma kids2 : forall a b ts, parse_trees R [a; b] ts -> exists x y, ts = [x; y] /\ parse_tree R a x /\ parse_tree R b y.
Proof. intros a b ts H. inversion H as [|? ? x ? Hx Hr]; subst. apply kids1 in Hr. destruct Hr as (y & -> & Hy). eauto 6. Qed.

Lemma counted1 : forall d x n, counted n (Node d [x]) -> counted n x.
Proof. intros d x n H. unfold counted in *. cbn in H. now rewrite app_nil_r in H. Qed.
Lemma counted2 : forall d x y n, counted n (Node d [x; y]) -> counted n x /\ counted (n + length (yield x)) y.
Proof.
  intros d x y n H. unfold counted in *. cbn in H. rewrite app_nil_r, map_app, app_length, seq_app in H.
  assert (L : length (map snd (yield x)) = length (seq n (length (yield x)))) by now rewrite map_length, seq_length.
  split.
  - apply (f_equal (firstn (length (map snd (yield x))))) in H. rewrite firstn_app, firstn_all, Nat.sub_diag, firstn_O, app_nil_r in H.
    rewrite L, firstn_app, firstn_all, Nat.sub_diag, firstn_O, app_nil_r in H. exact H.
  - apply (f_equal (skipn (length (map snd (yield x))))) in H. rewrite skipn_app, skipn_all, Nat.sub_diag, skipn_O in H.
    rewrite L, skipn_app, skipn_all, Nat.sub_diag, skipn_O in H. exact H.
Qed.
Lemma over1 : forall d x, over_terminals (Node d [x]) -> over_terminals x.
Proof. intros d x H s v Hs. apply (H s v). cbn. now rewrite app_nil_r. Qed.
Lemma over2 : forall d x y, over_terminals (Node d [x; y]) -> over_terminals x /\ over_terminals y.
Proof.
  intros d x y H. split; intros s v Hs; apply (H s v); cbn; rewrite app_nil_r; apply in_app_iff; auto.
Qed.
Lemma leaf_tree : forall s n t, is_terminal R s = true -> parse_tree R s t -> counted n t -> t = Leaf s n.
Proof.
  intros s n t Ht Hp Hc. apply is_terminal_spec in Ht. inversion Hp as [? v|d r ts E]; subst.
  - unfold counted in Hc. cbn in Hc. now injection Hc as ->.
  - elim (Ht r); auto. eapply nth_error_In; eauto.
Qed.
Lemma inner_tree : forall s t, is_terminal R s = false -> over_terminals t -> parse_tree R s t -> exists d ts, t = Node d ts.
Proof.
  intros s t Ht Ho Hp. inversion Hp as [? v|d r ts E]; subst; [|eauto].
  rewrite (Ho s v) in Ht; [discriminate|]. now left.
Qed.

Definition inner_tree' s t Hp Ht Ho := inner_tree s t Ht Ho Hp.

Ltac rule H :=
  let rhs := fresh "rhs" in
  apply tree_rule in H; destruct H as (rhs & Hin & H);
  vm_compute in Hin; repeat (destruct Hin as [Hin|Hin]; [injection Hin as <- <-|]); [..|easy].
Ltac two H := apply kids2 in H; destruct H as (x & y & -> & Hx & Hy).
Ltac one H := apply kids1 in H; destruct H as (x & -> & Hx).
Ltac leafy Hx Cx := eapply leaf_tree in Hx; [|reflexivity|exact Cx].

Lemma tree_expression : forall k t n, size t <= k -> over_terminals t -> counted n t ->
  (parse_tree R 1 t -> exists s, expression s /\ t = sum_tree s n) /\
  (parse_tree R 2 t -> exists p, product_numbers digits_ok p /\ t = product_tree p n) /\
  (parse_tree R 3 t -> exists f, factor_numbers digits_ok f /\ t = factor_tree f n) /\
  (parse_tree R 4 t -> exists ds, digits_ok ds /\ t = number_tree ds n).
Proof.
  induction k as [|k IH]; intros t n Hk Ho Hc; [destruct t; cbn in Hk; lia|].
  assert (Hs : forall d ts x, t = Node d ts -> In x ts -> size x <= k).
  { intros d ts x -> Hx. cbn in Hk. assert (size x <= list_sum (map size ts)); [|lia].
    clear - Hx. induction ts as [|y ts IHt]; [easy|]. unfold list_sum. cbn [map fold_right]. fold (list_sum (map size ts)).
    destruct Hx as [->|Hx]; [lia|]. apply IHt in Hx. lia. }
  split; [|split; [|split]]; intros Hp.
  - destruct (inner_tree' _ _ Hp eq_refl Ho) as (d & ts & E). rewrite E in Hp, Ho, Hc. rule Hp.
    1,2: two Hp; destruct (over2 _ _ _ Ho) as [Ox Oy]; destruct (counted2 _ _ _ _ Hc) as [Cx Cy];
      destruct (inner_tree' _ _ Hx eq_refl Ox) as (d & ts & Ex);
      assert (Kx := Hs _ _ x E ltac:(simpl; auto)); assert (Ky := Hs _ _ y E ltac:(simpl; auto));
      rewrite Ex in Hx, Ox, Cx; rule Hx; apply kids2 in Hx; destruct Hx as (z & l & -> & Hz & Hl);
      destruct (over2 _ _ _ Ox) as [Oz _]; destruct (counted2 _ _ _ _ Cx) as [Cz Cl]; leafy Hl Cl;
      assert (Kz : size z <= k) by (subst x; cbn in Kx; unfold list_sum in Kx; cbn in Kx; lia);
      destruct (proj1 (IH z _ Kz Oz Cz) Hz) as (s & Ws & Es);
      destruct (proj1 (proj2 (IH y _ Ky Oy Cy)) Hy) as (p & Wp & Ep).
    + exists (Plus s p). split; [split; auto|]. rewrite E, Ep, Ex, Hl, Es. cbn [sum_tree]. cbn zeta. cbn [yield flat_map].
      rewrite (proj1 trees_yield s Ws). rewrite !app_length, combine_length, seq_length, Nat.min_id. cbn [length].
      repeat f_equal; lia.
    + exists (Minus s p). split; [split; auto|]. rewrite E, Ep, Ex, Hl, Es. cbn [sum_tree]. cbn zeta. cbn [yield flat_map].
      rewrite (proj1 trees_yield s Ws). rewrite !app_length, combine_length, seq_length, Nat.min_id. cbn [length].
      repeat f_equal; lia.
    + one Hp. apply over1 in Ho. apply counted1 in Hc. assert (Kx := Hs _ _ x E ltac:(simpl; auto)).
      destruct (proj1 (proj2 (IH x _ Kx Ho Hc)) Hx) as (p & Wp & Ep). exists (Prod p). split; [auto|]. now rewrite E, Ep.
  - destruct (inner_tree' _ _ Hp eq_refl Ho) as (d & ts & E). rewrite E in Hp, Ho, Hc. rule Hp.
    1,2: two Hp; destruct (over2 _ _ _ Ho) as [Ox Oy]; destruct (counted2 _ _ _ _ Hc) as [Cx Cy];
      destruct (inner_tree' _ _ Hx eq_refl Ox) as (d & ts & Ex);
      assert (Kx := Hs _ _ x E ltac:(simpl; auto)); assert (Ky := Hs _ _ y E ltac:(simpl; auto));
      rewrite Ex in Hx, Ox, Cx; rule Hx; apply kids2 in Hx; destruct Hx as (z & l & -> & Hz & Hl);
      destruct (over2 _ _ _ Ox) as [Oz _]; destruct (counted2 _ _ _ _ Cx) as [Cz Cl]; leafy Hl Cl;
      assert (Kz : size z <= k) by (subst x; cbn in Kx; unfold list_sum in Kx; cbn in Kx; lia);
      destruct (proj1 (proj2 (IH z _ Kz Oz Cz)) Hz) as (s & Ws & Es);
      destruct (proj1 (proj2 (proj2 (IH y _ Ky Oy Cy))) Hy) as (p & Wp & Ep).
    + exists (Times s p). split; [split; auto|]. rewrite E, Ep, Ex, Hl, Es. cbn [product_tree]. cbn zeta. cbn [yield flat_map].
      rewrite (proj1 (proj2 trees_yield) s Ws). rewrite !app_length, combine_length, seq_length, Nat.min_id. cbn [length].
      repeat f_equal; lia.
    + exists (Over s p). split; [split; auto|]. rewrite E, Ep, Ex, Hl, Es. cbn [product_tree]. cbn zeta. cbn [yield flat_map].
      rewrite (proj1 (proj2 trees_yield) s Ws). rewrite !app_length, combine_length, seq_length, Nat.min_id. cbn [length].
      repeat f_equal; lia.
    + one Hp. apply over1 in Ho. apply counted1 in Hc. assert (Kx := Hs _ _ x E ltac:(simpl; auto)).
      destruct (proj1 (proj2 (proj2 (IH x _ Kx Ho Hc))) Hx) as (p & Wp & Ep). exists (Fact p). split; [auto|]. now rewrite E, Ep.
  - destruct (inner_tree' _ _ Hp eq_refl Ho) as (d & ts & E). rewrite E in Hp, Ho, Hc. rule Hp.
    + two Hp. destruct (over2 _ _ _ Ho) as [Ox Oy]. destruct (counted2 _ _ _ _ Hc) as [Cx Cy].
      leafy Hy Cy. destruct (inner_tree' _ _ Hx eq_refl Ox) as (d & ts & Ex). assert (Kx := Hs _ _ x E ltac:(simpl; auto)).
      rewrite Ex in Hx, Ox, Cx. rule Hx. apply kids2 in Hx. destruct Hx as (l & z & -> & Hl & Hz).
      destruct (over2 _ _ _ Ox) as [_ Oz]. destruct (counted2 _ _ _ _ Cx) as [Cl Cz]. leafy Hl Cl.
      assert (Kz : size z <= k) by (subst x; cbn in Kx; unfold list_sum in Kx; cbn in Kx; lia).
      destruct (proj1 (IH z _ Kz Oz Cz) Hz) as (s & Ws & Es). exists (Paren s). split; [auto|].
      rewrite E, Hy, Ex, Es, Hl. cbn [factor_tree]. cbn [yield flat_map].
      rewrite (proj1 trees_yield s Ws). rewrite !app_length, combine_length, seq_length, Nat.min_id. cbn [length].
      rewrite Nat.add_1_r. match goal with |- Node 6 [_; Leaf 10 ?a] = Node 6 [_; Leaf 10 ?b] => replace a with b by lia end. reflexivity.
    + one Hp. apply over1 in Ho. apply counted1 in Hc. assert (Kx := Hs _ _ x E ltac:(simpl; auto)).
      destruct (proj2 (proj2 (proj2 (IH x _ Kx Ho Hc))) Hx) as (p & Wp & Ep). exists (Number p). split; [auto|]. now rewrite E, Ep.
  - destruct (inner_tree' _ _ Hp eq_refl Ho) as (d & ts & E). rewrite E in Hp, Ho, Hc.
    assert (X : exists i, i < 10 /\ ((d = 8 + 2 * i /\ parse_trees R [11 + i; 4] ts) \/ (d = 9 + 2 * i /\ parse_trees R [11 + i] ts))).
    { apply tree_rule in Hp. destruct Hp as (rhs & Hin & Hp). vm_compute in Hin.
      repeat (destruct Hin as [Hin|Hin]; [injection Hin as <- <-|]); [..|easy].
      1,2: exists 0. 3,4: exists 1. 5,6: exists 2. 7,8: exists 3. 9,10: exists 4. 11,12: exists 5. 13,14: exists 6.
      15,16: exists 7. 17,18: exists 8. 19,20: exists 9. all: split; [lia|]; auto. }
    assert (T : forall i, i < 10 -> is_terminal R (11 + i) = true).
    { intros i Hi. do 10 (destruct i as [|i]; [reflexivity|]). lia. }
    destruct X as (i & Hi & [[-> X] | [-> X]]).
    + two X. destruct (over2 _ _ _ Ho) as [Ox Oy]. destruct (counted2 _ _ _ _ Hc) as [Cx Cy].
      eapply leaf_tree in Hx; [|now apply T|exact Cx]. assert (Ky := Hs _ _ y E ltac:(simpl; auto)).
      destruct (proj2 (proj2 (proj2 (IH y _ Ky Oy Cy))) Hy) as (ds & [Wn Wd] & Ed). exists (i :: ds). split; [split; [discriminate|auto]|].
      rewrite E, Hx, Ed, Hx. destruct ds as [|d ds]; [easy|].
      change (number_tree (i :: d :: ds) n) with (Node (8 + 2 * i) [Leaf (11 + i) n; number_tree (d :: ds) (S n)]).
      cbn [yield length]. now rewrite Nat.add_1_r.
    + one X. apply counted1 in Hc. eapply leaf_tree in Hx; [|now apply T|exact Hc]. exists [i]. split; [split; [discriminate|auto]|].
      now rewrite E, Hx.
Qed.

(** ** The value of the tree *)
Definition calc : evaluator (option Z) := with_external prec_dg prec_eval None.
Notation fi := (g_forest_info prec_dg).
Definition val : tree -> list (option Z) := value calc fi (fun _ => [None]).

(** the model's arithmetic is 32-bit arithmetic *)
Lemma i32_spec : forall z, i32 z = fit32 z.
Proof.
  intros z. unfold i32, fit32. change (- 2 ^ 31)%Z with (-2147483648)%Z. change (2 ^ 31)%Z with 2147483648%Z.
  destruct (-2147483648 <=? z)%Z; [cbn [andb]|reflexivity].
  destruct (Z.leb_spec z 2147483647), (Z.ltb_spec z 2147483648); auto; lia.
Qed.
Lemma op_spec : forall f x y, i32_op f x y = op32 f x y.
Proof. intros f [x|] [y|]; try reflexivity. apply i32_spec. Qed.
Lemma quot_spec : forall x y, y <> 0%Z -> Z.quot x y = truncated x y.
Proof. intros x y H. unfold truncated. now rewrite Z.quot_div. Qed.
Lemma div_spec : forall x y, i32_div x y = div32 x y.
Proof.
  intros [x|] [y|]; try reflexivity; [|now destruct y].
  unfold div32. destruct (Z.eqb_spec y 0) as [->|H]; [reflexivity|].
  rewrite <- quot_spec, <- i32_spec by auto. destruct y; [easy|reflexivity|reflexivity].
Qed.

Lemma digit_values : forall d n, d < 10 -> ev_leaf calc (11 + d) n = Some (Z.of_nat d).
Proof. intros d n H. do 10 (destruct d as [|d]; [reflexivity|]). lia. Qed.
Lemma digit_reduce2 : forall d a b, d < 10 -> reduce calc fi (8 + 2 * d) [a; b] = [prec_product 8 [a; b]].
Proof. intros d a b H. do 10 (destruct d as [|d]; [reflexivity|]). lia. Qed.
Lemma digit_reduce1 : forall d a, d < 10 -> reduce calc fi (9 + 2 * d) (restore fi (fun _ => [None]) (9 + 2 * d) [a]) = [a].
Proof. intros d a H. do 10 (destruct d as [|d]; [destruct a; reflexivity|]). lia. Qed.
Lemma digit_times : forall d, d < 10 -> i32_op Z.mul (Some (Z.of_nat d)) (Some 10%Z) = Some (Z.of_nat d * 10)%Z.
Proof. intros d H. do 10 (destruct d as [|d]; [reflexivity|]). lia. Qed.

Lemma number_value : forall ds n, digits_ok ds -> val (number_tree ds n) = [weighted ds].
Proof.
  induction ds as [|d ds IH]; intros n [H1 H2]; [easy|]. inversion H2 as [|? ? Hd Hds]; subst.
  destruct ds as [|d' ds].
  - cbn [number_tree]. unfold val. cbn [value flat_map app]. rewrite (digit_values d n Hd), digit_reduce1; auto.
  - change (number_tree (d :: d' :: ds) n) with (Node (8 + 2 * d) [Leaf (11 + d) n; number_tree (d' :: ds) (S n)]).
    unfold val. cbn [value flat_map]. change (value calc fi (fun _ => [None]) (number_tree (d' :: ds) (S n))) with (val (number_tree (d' :: ds) (S n))).
    rewrite IH by (split; [discriminate|auto]). rewrite (digit_values d n Hd). cbn [app]. rewrite digit_reduce2 by auto.
    change (weighted (d :: d' :: ds)) with (op32 Z.add (Some (Z.of_nat d * 10)%Z) (weighted (d' :: ds))). rewrite <- op_spec.
    unfold prec_product. unfold digit_number, arg. cbn [nth]. rewrite digit_times by auto.
    unfold strictly. cbn [forallb]. now destruct (weighted (d' :: ds)).
Qed.

Lemma val_node1 : forall d x, val (Node d [x]) = reduce calc fi d (restore fi (fun _ => [None]) d (val x)).
Proof. intros. unfold val. cbn [value flat_map]. now rewrite app_nil_r. Qed.
Lemma val_node2 : forall d x y, val (Node d [x; y]) = reduce calc fi d (val x ++ val y).
Proof. intros. unfold val. cbn [value flat_map]. now rewrite app_nil_r. Qed.

Ltac reduced := unfold reduce, restore, fi_external_origin; cbn; unfold prec_product, strictly, arg, i32_div, i32_op; cbn;
  repeat match goal with |- context [match ?x with Some _ => _ | None => _ end] => is_var x; destruct x end; cbn; try reflexivity.

Lemma trees_value :
  (forall s, sum_numbers digits_ok s -> forall n, val (sum_tree s n) = [sum_value weighted s]) /\
  (forall p, product_numbers digits_ok p -> forall n, val (product_tree p n) = [product_value weighted p]) /\
  (forall f, factor_numbers digits_ok f -> forall n, val (factor_tree f n) = [factor_value weighted f]).
Proof.
  apply math_ind; cbn [sum_numbers product_numbers factor_numbers sum_tree product_tree factor_tree].
  - intros p IH H n. rewrite val_node1, (IH H). change (sum_value weighted (Prod p)) with (product_value weighted p). generalize (product_value weighted p). intros o. reduced.
  - intros s IHs p IHp [H1 H2] n. cbn zeta. rewrite !val_node2, (IHs H1), (IHp H2).
    change (sum_value weighted (Plus s p)) with (op32 Z.add (sum_value weighted s) (product_value weighted p)). rewrite <- op_spec. generalize (product_value weighted p), (sum_value weighted s). intros o o0. reduced.
  - intros s IHs p IHp [H1 H2] n. cbn zeta. rewrite !val_node2, (IHs H1), (IHp H2).
    change (sum_value weighted (Minus s p)) with (op32 Z.sub (sum_value weighted s) (product_value weighted p)). rewrite <- op_spec. generalize (product_value weighted p), (sum_value weighted s). intros o o0. reduced.
  - intros p IH H n. rewrite val_node1, (IH H). change (product_value weighted (Fact p)) with (factor_value weighted p). generalize (factor_value weighted p). intros o. reduced.
  - intros p IHp f IHf [H1 H2] n. cbn zeta. rewrite !val_node2, (IHp H1), (IHf H2).
    change (product_value weighted (Times p f)) with (op32 Z.mul (product_value weighted p) (factor_value weighted f)). rewrite <- op_spec. generalize (product_value weighted p), (factor_value weighted f). intros o o0. reduced.
  - intros p IHp f IHf [H1 H2] n. cbn zeta. rewrite !val_node2, (IHp H1), (IHf H2).
    change (product_value weighted (Over p f)) with (div32 (product_value weighted p) (factor_value weighted f)). rewrite <- div_spec. generalize (product_value weighted p), (factor_value weighted f). intros o o0. reduced. now destruct z.
  - intros ds H n. rewrite val_node1, number_value by auto. change (factor_value weighted (Number ds)) with (weighted ds). generalize (weighted ds). intros o. reduced.
  - intros s IH H n. rewrite !val_node2, (IH H). change (factor_value weighted (Paren s)) with (sum_value weighted s). generalize (sum_value weighted s). intros o. reduced.
Qed.

(** ** The tokens of an expression *)
Definition prec_chars : list ascii := list_ascii_of_string "+-*/()0123456789".
Definition tok1 (ch : ascii) : res sym :=
  pos <- unwrap (find_char prec_chars ch) ;; idx (seq 0 20) (pos + 4).
Definition char_of (s : sym) : option ascii := if s <? 5 then None else nth_error prec_chars (s - 5).
Definition is_token (ch : ascii) (s : sym) : Prop :=
  exists t, tok1 ch = Ret t /\ to_internal prec_dg t = Ret (Some s).

Lemma find_char_nth : forall l ch pos, find_char l ch = Some pos -> nth_error l pos = Some ch.
Proof.
  induction l as [|a l IH]; intros ch pos H; [discriminate|]. cbn in H. destruct (Ascii.eqb_spec a ch) as [->|N].
  - injection H as <-. reflexivity.
  - destruct (find_char l ch) as [q|] eqn:E; [|discriminate]. injection H as <-. cbn. auto.
Qed.

Lemma tok1_total : forall ch, (exists s, is_token ch s /\ char_of s = Some ch /\ user_terminal prec 23 prec_wrap s) \/ tok1 ch = Panic.
Proof.
  intros ch. unfold is_token, tok1. destruct (find_char prec_chars ch) as [pos|] eqn:E; [|now right].
  left. apply find_char_nth in E. exists (pos + 5).
  assert (L : pos < 16) by (change 16 with (length prec_chars); apply nth_error_Some; congruence).
  split; [|split].
  - exists (pos + 4). cbn [unwrap bind]. do 16 (destruct pos as [|pos]; [split; reflexivity|]). lia.
  - unfold char_of. replace (pos + 5 <? 5) with false by (symmetry; apply Nat.ltb_ge; lia). now replace (pos + 5 - 5) with pos by lia.
  - clear E. split; [lia|]. split; [|cbn; lia]. apply is_terminal_spec. do 16 (destruct pos as [|pos]; [reflexivity|]). lia.
Qed.

Lemma is_token_char : forall ch s, is_token ch s -> char_of s = Some ch.
Proof.
  intros ch s (t & H1 & H2). destruct (tok1_total ch) as [(s' & (t' & A & B) & C & _)|X]; congruence.
Qed.

Lemma tokens_inv : forall text syms, Forall2 is_token text syms -> forall text', Forall2 is_token text' syms -> text' = text.
Proof.
  induction 1 as [|ch s text syms H _ IH]; intros text' H'; inversion H' as [|ch' ? text2 ? A B]; subst; [auto|].
  f_equal; [|auto]. apply is_token_char in H, A. congruence.
Qed.

Lemma tokens_mapped : forall text syms, Forall2 is_token text syms ->
  exists tokens, mapM tok1 text = Ret tokens /\ mapped prec_dg tokens syms.
Proof.
  induction 1 as [|ch s text syms (t & H1 & H2) _ (tokens & E & M)].
  - exists []. split; [reflexivity|constructor].
  - exists (t :: tokens). cbn [mapM]. rewrite H1. cbn [bind]. rewrite E. split; [reflexivity|now constructor].
Qed.

Lemma text_tokens :
  (forall s, sum_numbers digits_ok s -> Forall2 is_token (sum_text s) (sum_toks s)) /\
  (forall p, product_numbers digits_ok p -> Forall2 is_token (product_text p) (product_toks p)) /\
  (forall f, factor_numbers digits_ok f -> Forall2 is_token (factor_text f) (factor_toks f)).
Proof.
  assert (T : forall ch s t, tok1 ch = Ret t -> to_internal prec_dg t = Ret (Some s) -> is_token ch s) by (intros ch s t A B; now exists t).
  apply math_ind; cbn [sum_numbers product_numbers factor_numbers sum_text product_text factor_text sum_toks product_toks factor_toks].
  - auto.
  - intros s IHs p IHp [H1 H2]. apply Forall2_app; [auto|]. constructor; [|auto]. eapply T; reflexivity.
  - intros s IHs p IHp [H1 H2]. apply Forall2_app; [auto|]. constructor; [|auto]. eapply T; reflexivity.
  - auto.
  - intros s IHs p IHp [H1 H2]. apply Forall2_app; [auto|]. constructor; [|auto]. eapply T; reflexivity.
  - intros s IHs p IHp [H1 H2]. apply Forall2_app; [auto|]. constructor; [|auto]. eapply T; reflexivity.
  - intros ds [_ H]. induction H as [|d ds Hd _ IH]; cbn [map]; constructor; auto.
    do 10 (destruct d as [|d]; [eapply T; reflexivity|]). lia.
  - intros s IH H. constructor; [eapply T; reflexivity|]. apply Forall2_app; [auto|]. constructor; [eapply T; reflexivity|constructor].
Qed.

Lemma token_user : forall text syms, Forall2 is_token text syms -> forall s, In s syms -> user_terminal prec 23 prec_wrap s.
Proof.
  induction 1 as [|ch s text syms (t & H1 & H2) _ IH]; intros s' Hs; [easy|]. destruct Hs as [<-|Hs]; [|auto].
  destruct (tok1_total ch) as [(s2 & (t2 & A & B) & _ & U)|X]; [|congruence]. rewrite A in H1. injection H1 as ->. congruence.
Qed.

(** ** The calculator *)
Lemma map_fst_combine : forall A B (a : list A) (b : list B), length b = length a -> map fst (combine a b) = a.
Proof. induction a as [|x a IH]; intros [|y b] H; try discriminate; cbn; [auto|]. f_equal. auto. Qed.
Lemma map_snd_combine : forall A B (a : list A) (b : list B), length b = length a -> map snd (combine a b) = b.
Proof. induction a as [|x a IH]; intros [|y b] H; try discriminate; cbn; [auto|]. f_equal. auto. Qed.
Lemma calc_pushes : pushes calc (fun _ => None).
Proof. intros s results. now exists []. Qed.
Lemma calc_nulls : nulls_ok fi (fun _ => None : option Z) (fun _ => [None]).
Proof. intros s. reflexivity. Qed.
Lemma calc_acyclic : nulling_acyclic fi.
Proof. exists (fun _ => 0). intros lhs a b H. destruct H. Qed.

Lemma expression_tree : forall s, expression s -> forall t,
  input_tree prec prec_wrap 23 (numb 0 (sum_toks s)) t <-> t = Node 29 [Leaf 22 0; sum_tree s 0].
Proof.
  intros s Hs. split.
  - intros H. remember (numb 0 (sum_toks s)) as xs eqn:Ex. destruct H as [d r t Hd Hl Hr Hp|d r Hd Hl Hr].
    + assert (O : over_terminals t).
      { intros a v Ha. rewrite Ex in Ha. apply in_combine_l in Ha. apply is_terminal_spec.
        apply (token_user _ _ (proj1 text_tokens s Hs) a Ha). }
      assert (C : counted 0 t).
      { unfold counted. rewrite Ex, map_snd_combine; [|now rewrite seq_length]. now rewrite combine_length, seq_length, Nat.min_id. }
      destruct (proj1 (tree_expression (size t) t 0 (le_n _) O C) Hp) as (s' & Hs' & Et).
      assert (E : s' = s).
      { apply sum_toks_inj; auto. rewrite Et, (proj1 trees_yield s' Hs') in Ex. apply (f_equal (map fst)) in Ex.
        rewrite !map_fst_combine in Ex by now rewrite seq_length. exact Ex. }
      subst s'. rewrite Et. apply in_table in Hd. rewrite Hl, Hr in Hd. vm_compute in Hd.
      repeat (destruct Hd as [Hd|Hd]; [try discriminate; injection Hd as <-; reflexivity|]). easy.
    + apply in_table in Hd. rewrite Hl, Hr in Hd. vm_compute in Hd. repeat (destruct Hd as [Hd|Hd]; [discriminate|]). easy.
  - intros ->. rewrite <- (proj1 trees_yield s Hs). apply (it_inner prec prec_wrap 23 29 (plain_rule 23 [22; 1] None)); try reflexivity.
    now apply (proj1 trees_ok).
Qed.

Lemma P_calculate : forall P s, LEO P = false -> expression s -> exists fuel0, forall fuel, fuel0 <= fuel ->
  calculate prec_tokenize calc P prec_dg fuel (text s) = Ret [sum_value weighted s].
Proof.
  intros P s HL Hs. pose proof (proj1 text_tokens s Hs) as HT. destruct (tokens_mapped _ _ HT) as (tokens & E & M).
  destruct (bocage_new fi) as [b0| |] eqn:Hb; try discriminate.
  destruct (P_client_value P prec 23 prec_wrap 28 23 prec_dg HL prec_built b0 Hb calc (fun _ => None) (fun _ => [None]) calc_pushes calc_nulls
    calc_acyclic tokens (sum_toks s) M (token_user _ _ HT) prec_sorted _ (expression_tree s Hs)) as (fuel0 & H).
  exists fuel0. intros fuel Hf. unfold calculate, prec_tokenize, tokenize_math, text. rewrite list_ascii_of_string_of_list_ascii.
  change (mapM _ (sum_text s)) with (mapM tok1 (sum_text s)). rewrite E. cbn [bind]. rewrite (H fuel Hf).
  change (value calc fi (fun _ => [None]) (sum_tree s 0)) with (val (sum_tree s 0)). now rewrite (proj1 trees_value s Hs).
Qed.

Lemma P_calculate_rejects : forall E (ev : evaluator E) P input, LEO P = false -> (forall s, expression s -> text s <> input) ->
  exists fuel0, forall fuel, fuel0 <= fuel -> calculate prec_tokenize ev P prec_dg fuel input = Panic.
Proof.
  intros E ev P input HL Hn.
  assert (Z : forall fuel, calculate prec_tokenize ev P prec_dg fuel input =
    (tokens <- mapM tok1 (list_ascii_of_string input) ;; parse_and_evaluate ev P prec_dg fuel tokens)) by reflexivity.
  setoid_rewrite Z. clear Z.
  assert (X : (exists syms, Forall2 is_token (list_ascii_of_string input) syms) \/ mapM tok1 (list_ascii_of_string input) = Panic).
  { generalize (list_ascii_of_string input). induction l as [|ch l IH]; [left; now exists []|]. cbn [mapM].
    destruct (tok1_total ch) as [(s & T & _)| -> ]; [|now right]. destruct T as (t & A & B). rewrite A. cbn [bind].
    destruct IH as [[syms IH] | ->]; [|now right]. left. exists (s :: syms). constructor; [now exists t|auto]. }
  destruct X as [[syms HT] | ->]; [|now exists 0]. destruct (tokens_mapped _ _ HT) as (tokens & -> & M). cbn [bind].
  destruct (bocage_new fi) as [b0| |] eqn:Hb; try discriminate.
  eapply P_client_rejects with (c := prec); eauto.
  - exact prec_built.
  - exact (token_user _ _ HT).
  - intros [[_ (r & Hr & El & Er)] | [_ HD]].
    + apply In_nth_error in Hr. destruct Hr as [d Hd]. apply in_table in Hd. rewrite El, Er in Hd. vm_compute in Hd.
      repeat (destruct Hd as [Hd|Hd]; [discriminate|]). easy.
    + destruct (proj1 (derives_tree (c_rules prec)) _ _ HD (numb 0 syms)) as (t & Ht & Y); [apply map_fst_combine; now rewrite seq_length|].
      assert (O : over_terminals t).
      { intros a v Ha. rewrite Y in Ha. apply in_combine_l in Ha. apply is_terminal_spec. apply (token_user _ _ HT a Ha). }
      assert (C : counted 0 t).
      { unfold counted. rewrite Y, map_snd_combine; [|now rewrite seq_length]. now rewrite combine_length, seq_length, Nat.min_id. }
      destruct (proj1 (tree_expression (size t) t 0 (le_n _) O C) Ht) as (s & Hs & Et).
      apply (Hn s Hs). rewrite Et, (proj1 trees_yield s Hs) in Y. apply (f_equal (map fst)) in Y.
      rewrite !map_fst_combine in Y by now rewrite seq_length. subst syms.
      unfold text. rewrite <- (tokens_inv _ _ (proj1 text_tokens s Hs) _ HT). apply string_of_list_ascii_of_string.
Qed.

(** ** Numbers of at most two digits *)
Lemma weighted_small : forall ds, digits_ok ds -> length ds <= 2 -> weighted ds = fit32 (decimal ds).
Proof.
  intros ds [H1 H2] L. destruct ds as [|d [|d' [|]]]; cbn [length] in L; try lia; [easy| |].
  - inversion H2 as [|? ? Hd _]; subst. do 10 (destruct d as [|d]; [reflexivity|]). lia.
  - inversion H2 as [|? ? Hd H3]; subst. inversion H3 as [|? ? Hd' _]; subst.
    do 10 (destruct d as [|d]; [do 10 (destruct d' as [|d']; [reflexivity|]); lia|]). lia.
Qed.

Lemma value_ext : forall (Q : list nat -> Prop) f g, (forall ds, Q ds -> f ds = g ds) ->
  (forall s, sum_numbers Q s -> sum_value f s = sum_value g s) /\
  (forall p, product_numbers Q p -> product_value f p = product_value g p) /\
  (forall x, factor_numbers Q x -> factor_value f x = factor_value g x).
Proof.
  intros Q f g H. apply math_ind; cbn [sum_numbers product_numbers factor_numbers].
  - intros p IH Hp. exact (IH Hp).
  - intros s IHs p IHp [A B]. change (op32 Z.add (sum_value f s) (product_value f p) = op32 Z.add (sum_value g s) (product_value g p)). now rewrite IHs, IHp.
  - intros s IHs p IHp [A B]. change (op32 Z.sub (sum_value f s) (product_value f p) = op32 Z.sub (sum_value g s) (product_value g p)). now rewrite IHs, IHp.
  - intros p IH Hp. exact (IH Hp).
  - intros s IHs p IHp [A B]. change (op32 Z.mul (product_value f s) (factor_value f p) = op32 Z.mul (product_value g s) (factor_value g p)). now rewrite IHs, IHp.
  - intros s IHs p IHp [A B]. change (div32 (product_value f s) (factor_value f p) = div32 (product_value g s) (factor_value g p)). now rewrite IHs, IHp.
  - intros ds Hds. exact (H ds Hds).
  - intros s IH Hs. exact (IH Hs).
Qed.

Lemma numbers_mono : forall (Q Q' : list nat -> Prop), (forall ds, Q ds -> Q' ds) ->
  (forall s, sum_numbers Q s -> sum_numbers Q' s) /\
  (forall p, product_numbers Q p -> product_numbers Q' p) /\
  (forall x, factor_numbers Q x -> factor_numbers Q' x).
Proof. intros Q Q' H. apply math_ind; cbn [sum_numbers product_numbers factor_numbers]; intuition. Qed.

Lemma P_calculate_small : forall P s, LEO P = false -> sum_numbers (fun ds => digits_ok ds /\ length ds <= 2) s ->
  exists fuel0, forall fuel, fuel0 <= fuel ->
    calculate prec_tokenize calc P prec_dg fuel (text s) = Ret [arithmetic_value s].
Proof.
  intros P s HL Hs. destruct (P_calculate P s HL) as (n & H).
  - apply (proj1 (numbers_mono _ _ (fun ds X => proj1 X)) s Hs).
  - exists n. intros fuel Hf. rewrite (H fuel Hf). unfold arithmetic_value.
    rewrite (proj1 (value_ext _ weighted (fun ds => fit32 (decimal ds)) (fun ds X => weighted_small ds (proj1 X) (proj2 X))) s Hs). reflexivity.
Qed.

Lemma P_leaf_refuted : exists tokens vs,
  mapped prec_dg tokens [12] /\ user_terminal prec 23 prec_wrap 12 /\
  parse_and_evaluate collect default_perf prec_dg 200 tokens = Ret vs /\
  concat vs <> combine tokens (seq 0 (length tokens)) /\ concat vs = [(12, 0)].
Proof.
  exists [11], [[(12, 0)]]. split; [repeat constructor|]. split.
  - split; [cbn; lia|]. split; [apply is_terminal_spec; reflexivity|cbn; lia].
  - split; [vm_compute; reflexivity|]. split; [discriminate|reflexivity].
Qed.

Lemma not_an_expression : forall s, expression s -> text s <> "1+"%string.
Proof.
  intros s Hs E. pose proof (proj1 text_tokens s Hs) as HT. apply (f_equal list_ascii_of_string) in E. unfold text in E.
  rewrite list_ascii_of_string_of_list_ascii in E. rewrite E in HT. cbn in HT.
  inversion HT as [|? a ? l (t1 & A1 & B1) HT2 X1 X2]; subst. inversion HT2 as [|? b ? l2 (t2 & A2 & B2) HT3 X3 X4]; subst. inversion HT3; subst.
  cbn in A1, A2. injection A1 as <-. injection A2 as <-. cbn in B1, B2. injection B1 as <-. injection B2 as <-.
  pose proof (proj1 read_back s Hs []) as R. rewrite <- X2 in R. discriminate.
Qed.

(** ** The ambiguous grammar: the readings of 2-0*3+1 *)
Definition a_num (d pos : nat) : tree := Node 1 [Node (7 + 2 * d) [Leaf (8 + d) pos]].
Definition a_op (l : tree) (op pos : nat) (r : tree) : tree := Node 0 [Node 28 [l; Node (2 + op) [Leaf (4 + op) pos]]; r].
Definition readings : list tree :=
  let n2 := a_num 2 0 in let n0 := a_num 0 2 in let n3 := a_num 3 4 in let n1 := a_num 1 6 in
  let minus l r := a_op l 1 1 r in let times l r := a_op l 2 3 r in let plus l r := a_op l 0 5 r in
  [ minus n2 (times n0 (plus n3 n1)); minus n2 (plus (times n0 n3) n1); plus (minus n2 (times n0 n3)) n1;
    plus (times (minus n2 n0) n3) n1; times (minus n2 n0) (plus n3 n1) ].

Definition acalc : evaluator (option Z) := with_external amath_dg amath_eval None.
Lemma P_readings : exists ts : list tree, NoDup ts /\ length ts = 5 /\
  (forall t, In t ts -> parse_tree (c_rules amath) (w_inner amath_wrap) t /\
     yield t = combine [10; 5; 8; 6; 11; 4; 9] (seq 0 7)) /\
  map (value acalc (g_forest_info amath_dg) (fun _ => [])) ts = map (fun v => [Some v]) [2; 1; 3; 7; 8]%Z /\
  calculate amath_tokenize acalc default_perf amath_dg 400 "2-0*3+1" = Ret [Some 2%Z; None; Some 8%Z].
Proof.
  exists readings. split.
  { repeat (constructor; [cbn; intuition discriminate|]). constructor. }
  split; [reflexivity|]. split.
  - assert (X : forallb (fun t => tree_ok 20 (c_rules amath) 1 t) readings = true) by (vm_compute; reflexivity).
    rewrite forallb_forall in X. intros t Ht. split; [apply (tree_ok_ok 20); auto|].
    repeat (destruct Ht as [<-|Ht]; [reflexivity|]). easy.
  - split; vm_compute; reflexivity.
Qed.
