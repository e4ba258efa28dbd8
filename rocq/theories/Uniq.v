(** Uniq: no tree is represented twice, and all the trees of the whole input are
    gathered under one node, whatever the order of the symbols. *)
From Coq Require Import List Arith Bool Lia Permutation Sorted Relations.
From Verif Require Import Base BaseProofs Vec2d Vec2dProofs Item Heap HeapProofs Grammar BitMatrix
  DefaultGrammar Forest Recognizer Drive Spec Chart ChartFacts Tables Den Core1 Core2 Core3 Core4 Core5 Core6.
From Verif Require CyclicRun.
Import ListNotations.
Local Open Scope res_scope.

(** lexicographic order of (origin, symbol) *)
Definition lexlt (a b : nat * nat) : Prop := fst a < fst b \/ fst a = fst b /\ snd a < snd b.
Lemma lexlt_trans : forall a b c, lexlt a b -> lexlt b c -> lexlt a c.
Proof. unfold lexlt. intros. lia. Qed.
Lemma lexlt_irrefl : forall a, ~ lexlt a a.
Proof. unfold lexlt. intros. lia. Qed.

(** unary rules lead from smaller to larger symbols, ends of chains excepted *)
Definition ordered (R : list prule) : Prop :=
  rules_sorted R /\
  forall r B, In r R -> p_rhs r = [B] -> (exists r', In r' R /\ p_lhs r' = B) -> p_lhs r < B.

Lemma NoDup_app_iff : forall A (l l' : list A),
  NoDup (l ++ l') <-> NoDup l /\ NoDup l' /\ forall x, In x l -> ~ In x l'.
Proof.
  induction l as [|a l IH]; intros l'; cbn.
  - split; [intros H; split; [constructor|split; [auto|intros x []]]|tauto].
  - split.
    + intros H. inversion H as [|? ? Hn Hd]; subst. apply IH in Hd. destruct Hd as (A1 & A2 & A3).
      split; [constructor; [intros X; apply Hn, in_app_iff; auto|auto]|]. split; [auto|].
      intros x [<- | Hx] X; [apply Hn, in_app_iff; auto|now apply (A3 x)].
    + intros (A1 & A2 & A3). inversion A1 as [|? ? Hn Hd]; subst. constructor.
      * intros X. apply in_app_iff in X. destruct X as [X|X]; [auto|]. apply (A3 a); auto.
      * apply IH. split; [auto|]. split; [auto|]. intros x Hx. apply A3. auto.
Qed.

Lemma NoDup_flat_map : forall A B (f : A -> list B) l,
  (forall x, In x l -> NoDup (f x)) -> NoDup l ->
  (forall x y b, In x l -> In y l -> In b (f x) -> In b (f y) -> x = y) -> NoDup (flat_map f l).
Proof.
  induction l as [|a l IH]; cbn; intros Hf Hl Hd; [constructor|].
  inversion Hl as [|? ? Hn Hl']; subst. apply NoDup_app_iff. split; [apply Hf; auto|].
  split; [apply IH; auto; intros x y b Hx Hy; apply Hd; auto|].
  intros b Hb X. apply in_flat_map in X. destruct X as (y & Hy & X).
  assert (a = y) by (eapply Hd; eauto). subst. auto.
Qed.

Lemma NoDup_map_on : forall A B (f : A -> B) l,
  (forall x y, In x l -> In y l -> f x = f y -> x = y) -> NoDup l -> NoDup (map f l).
Proof.
  induction l as [|a l IH]; cbn; intros Hf Hl; [constructor|].
  inversion Hl as [|? ? Hn Hl']; subst. constructor.
  - intros X. apply in_map_iff in X. destruct X as (y & Ey & Hy).
    assert (y = a) by (apply Hf; auto). subst. auto.
  - apply IH; auto.
Qed.

(** number of leaves *)
Definition width (t : tree) : nat := length (yield t).
Definition widths (ts : list tree) : nat := length (flat_map yield ts).

(** ** Ordered grammars: the order in which groups come *)
Section Order.
  Variable R : list prule.
  Hypothesis Hord : ordered R.
  Notation fitem := (item fnode).

  Definition rank (x : fitem) : nat * nat := (it_origin x, Core1.lhs_of R (it_dot x)).

  Lemma ile_rank : forall x y, (exists r, nth_error R (it_dot x) = Some r) -> (exists r, nth_error R (it_dot y) = Some r) ->
    ile x y -> rank x = rank y \/ lexlt (rank x) (rank y).
  Proof.
    intros x y [r Hr] [r' Hr'] H. unfold ile in H. rewrite item_leb_spec in H. unfold rank, lexlt, Core1.lhs_of. cbn.
    rewrite Hr, Hr'. destruct H as [H|[H1 H2]]; [auto|].
    destruct Hord as [Hs _]. pose proof (Hs _ _ _ _ H2 Hr Hr') as X. rewrite H1.
    destruct (Nat.eq_dec (p_lhs r) (p_lhs r')) as [->|Hne]; [auto|]. right. right. split; [auto|]. lia.
  Qed.
End Order.

Section Uniq.
  Variable P : perf.
  Variable g : dgrammar.
  Variable R : list prule.
  Variables nsyms nall : nat.
  Variables FIRST FOLLOW : sym -> sym -> bool.
  Variable root : sym.
  Hypothesis Hleo : LEO P = false.
  Hypothesis wf : wf_rules R nsyms nall.
  Hypothesis tok : tables_ok g R nsyms nall FIRST FOLLOW.
  (* the wrapper [root ::= g0 eof], [g0 ::= sof ...] *)
  Variable d0 : nat.
  Variables g0 sof eof : sym.
  Variable r0 : prule.
  Hypothesis Hsorted : rules_sorted R.
  Hypothesis Hrr : root < nsyms.
  Hypothesis Hrtop : forall r, In r R -> ~ In root (p_rhs r).
  Hypothesis Hr0 : nth_error R d0 = Some r0.
  Hypothesis El0 : p_lhs r0 = root.
  Hypothesis Er0 : p_rhs r0 = [g0; eof].
  Hypothesis Honly : forall d r, nth_error R d = Some r -> p_lhs r = root -> d = d0.
  Hypothesis Hg0 : forall r, In r R -> p_lhs r = g0 -> nth_error (p_rhs r) 0 = Some sof.
  Hypothesis Hsof : terminal R sof.

  Notation fitem := (item fnode).
  Notation state := (rstate (list (nat * fnode)) fnode).
  Notation lhs_of := (lhs_of R).
  Notation heap_conseq := (heap_conseq P R nsyms FOLLOW).
  Notation med_conseq := (med_conseq P R nsyms FIRST).
  Notation eSym := (eSym P R nsyms FIRST FOLLOW root).
  Notation eComp := (eComp P R nsyms FIRST FOLLOW root).
  Notation eMed := (eMed P R nsyms FIRST FOLLOW root).
  Notation ePred := (ePred P R nsyms FIRST FOLLOW root).
  Notation sound_heap := (sound_heap P R nsyms FIRST FOLLOW root).
  Notation sound_med := (sound_med P R nsyms FIRST FOLLOW root).
  Notation sound_sym := (sound_sym P R nsyms FIRST FOLLOW root).
  Notation exact := (exact P R nsyms FIRST FOLLOW root).
  Notation Inv := (Inv P R nsyms FIRST FOLLOW root).

  (** every leaf takes one location *)
  Lemma chart_width : forall E,
    (forall s i j t, eSym E s i j t -> i + width t = j) /\
    (forall d i j ts, eComp E d i j ts -> i + widths ts = j) /\
    (forall d i j t, eMed E d i j t -> i + width t = j) /\
    (forall s j, ePred E s j -> True).
  Proof.
    intros E. unfold Core3.eSym, Core3.eComp, Core3.eMed, Core3.ePred.
    apply chart_ind; intros; auto.
    - cbn. lia.
    - unfold widths in *. cbn. now rewrite app_nil_r.
    - unfold widths, width in *. cbn. rewrite app_length, app_nil_r. lia.
  Qed.

  Definition labels (it : fitem) : list ((nat * nat) * list tree) := map (pair (key it)) (trees (it_node it)).

  Definition uniq_set (set : list fitem) : Prop := NoDup (flat_map labels set).
  (* one item with the dot before eof *)
  Definition one (set : list fitem) : Prop :=
    forall x y, In x set -> In y set -> it_dot x = d0 -> it_dot y = d0 -> x = y.

  Lemma labels_in : forall it ky ts, In (ky, ts) (labels it) <-> ky = key it /\ den (it_node it) ts.
  Proof.
    intros it ky ts. unfold labels. rewrite in_map_iff, <- trees_den. split.
    - intros (x & E & Hx). pose proof (f_equal fst E) as E1. apply (f_equal snd) in E. cbn [fst snd] in *. subst. auto.
    - intros [-> H]. eauto.
  Qed.

  Lemma labels_item : forall it, NoDup (trees (it_node it)) -> NoDup (labels it).
  Proof. intros it H. apply NoDup_map_on; [|auto]. intros x y _ _ X. apply (f_equal snd) in X. exact X. Qed.

  Lemma uniq_set_item : forall set it, uniq_set set -> In it set -> NoDup (trees (it_node it)).
  Proof.
    intros set it H Hin. apply in_split in Hin. destruct Hin as (a & b & ->). unfold uniq_set in H.
    rewrite flat_map_app in H. apply NoDup_app_iff in H. destruct H as (_ & H & _). cbn [flat_map] in H.
    apply NoDup_app_iff in H. destruct H as (H & _). now apply NoDup_map_inv in H.
  Qed.

  Lemma uniq_set_inj : forall set x y ts, uniq_set set -> In x set -> In y set -> key x = key y ->
    den (it_node x) ts -> den (it_node y) ts -> x = y.
  Proof.
    induction set as [|a l IH]; intros x y ts H Hx Hy Ek Dx Dy; [destruct Hx|].
    unfold uniq_set in H. cbn [flat_map] in H. apply NoDup_app_iff in H. destruct H as (_ & H & Hd).
    assert (X : forall z, In z l -> key z = key a -> den (it_node a) ts -> den (it_node z) ts -> False).
    { intros z Hz E Da Dz. apply (Hd (key a, ts)); [now apply labels_in|]. apply in_flat_map. exists z.
      split; [auto|]. now apply labels_in. }
    destruct Hx as [<- | Hx], Hy as [<- | Hy]; auto.
    - exfalso. now apply (X y).
    - exfalso. now apply (X x).
    - now apply (IH x y ts).
  Qed.

  Lemma uniq_set_nodup : forall set, uniq_set set -> (forall it, In it set -> exists ts, den (it_node it) ts) -> NoDup set.
  Proof.
    induction set as [|a l IH]; intros H Hne; [constructor|].
    unfold uniq_set in H. cbn [flat_map] in H. apply NoDup_app_iff in H. destruct H as (_ & H & Hd). constructor.
    - intros Hin. destruct (Hne a (or_introl eq_refl)) as [ts Hts]. apply (Hd (key a, ts)); [now apply labels_in|].
      apply in_flat_map. exists a. split; [auto|]. now apply labels_in.
    - apply IH; [exact H|]. intros it Hit. apply Hne. now right.
  Qed.

  Lemma labels_distinct : forall l, NoDup l -> (forall it, In it l -> NoDup (trees (it_node it))) ->
    (forall x y ts, In x l -> In y l -> key x = key y -> den (it_node x) ts -> den (it_node y) ts -> x = y) ->
    uniq_set l.
  Proof.
    intros l Hl Ht Hd. apply NoDup_flat_map; auto.
    - intros x Hx. apply labels_item; auto.
    - intros x y [ky ts] Hx Hy Bx By. apply labels_in in Bx, By. destruct Bx as [-> Bx], By as [E By]. now apply (Hd x y ts).
  Qed.

  (** *** What starts at the beginning *)
  Lemma topr_wrapper : forall A T, topr R nsyms A T -> T = root \/ T = g0 \/ T = sof -> A = root \/ A = g0 \/ A = sof.
  Proof.
    induction 1 as [A HA|A r T HA Hr Hn _ IH]; intros HT; [auto|]. destruct (IH HT) as [E|[E|E]].
    - apply In_nth_error in Hr. destruct Hr as [d Hd]. pose proof (Honly _ _ Hd E). subst d.
      assert (r = r0) by congruence. subst r. rewrite Er0 in Hn. injection Hn as <-. auto.
    - rewrite (Hg0 _ Hr E) in Hn. injection Hn as <-. auto.
    - elim (Hsof r Hr E).
  Qed.

  Lemma pred_wrapper : forall s s', pred R nsyms s s' -> s = root \/ s = g0 \/ s = sof -> s' = root \/ s' = g0 \/ s' = sof.
  Proof.
    intros s s' H. apply clos_rt_rt1n in H. induction H as [|x y z Hxy _ IH]; [auto|]. intros Hx. apply IH.
    destruct Hxy as (r & Hr & Hn & Hy & Ht). destruct (topr_wrapper _ _ Ht Hx) as [E|[E|E]].
    - apply In_nth_error in Hr. destruct Hr as [d Hd]. pose proof (Honly _ _ Hd E). subst d.
      assert (r = r0) by congruence. subst r. rewrite Er0 in Hn. injection Hn as <-. auto.
    - rewrite (Hg0 _ Hr E) in Hn. injection Hn as <-. auto.
    - elim (Hsof r Hr E).
  Qed.

  Definition plain (E : env) : Prop := (forall s, ~ eseed E 0 s) /\ forall j s, eseed E (S j) s -> s <> root.

  Lemma pred_start : forall E s, plain E -> ePred E s 0 -> s = root \/ s = g0 \/ s = sof.
  Proof.
    intros E s [Hs _] H. remember 0 as z eqn:Ez. destruct H as [s Hp|d r B C i j t s Hr Er HM Hp|s s' j Hsd Hp].
    - eapply pred_wrapper; eauto.
    - apply Med_lt in HM. lia.
    - subst j. now elim (Hs s).
  Qed.

  Lemma comp_start : forall E d j ts, plain E -> eComp E d 0 j ts -> lhs_of d = root \/ lhs_of d = g0.
  Proof.
    intros E d j ts Hpl H.
    assert (X : exists r T, nth_error R d = Some r /\ topr R nsyms (p_lhs r) T /\ ePred E T 0).
    { inversion H as [d' r B i j' t T Hr Er HS Ht Hp|d' r B C i m j' t1 t2 Hr Er HM HS]; subst; [eauto|].
      inversion HM as [d' r' B' C' i' j' t' T Hr' Er' HS' Ht Hp]; subst. eauto. }
    destruct X as (r & T & Hr & Ht & Hp). unfold Core1.lhs_of. rewrite Hr.
    destruct (topr_wrapper _ _ Ht (pred_start _ _ Hpl Hp)) as [E1|[E1|E1]]; auto.
    elim (Hsof r (nth_error_In _ _ Hr) E1).
  Qed.

  Lemma med_start : forall E i j t, plain E -> eMed E d0 i j t -> i = 0.
  Proof.
    intros E i j t [_ Hs] H. exact (Med_dbe_start P R nsyms nall FIRST FOLLOW root wf Hrr Hrtop d0 r0 Hr0 El0 E i j t Hs H).
  Qed.

  Section Pass.
    Variable E : env.
    Variable pos : list nat.
    Variable cs : list (list fitem).
    Variable rows : bitmatrix.
    Variable k : nat.
    Hypothesis Hexact : exact E pos cs rows.
    Hypothesis Hlast : nth_error pos (length cs - 1) = Some k.
    Hypothesis Hcs : 0 < length cs.
    Hypothesis Huniq : forall set, In set cs -> uniq_set set.
    Hypothesis Hpos0 : nth_error pos 0 = Some 0.
    Hypothesis Hplain : plain E.
    Notation j := (S k).
    Notation h := (ehint E (S k)).
    Notation kp := (ekeep E (S k)).
    Notation completes := (completes P R nsyms FIRST FOLLOW cs rows h).
    Notation cstep := (cstep P R nsyms FIRST FOLLOW cs rows h kp).
    Notation csteps := (csteps P R nsyms FIRST FOLLOW cs rows h kp).

    Definition hfrom (D : list (sym * nat * fnode)) (x : fitem) : Prop :=
      exists s o T set row, In (s, o, T) D /\ nth_error cs o = Some set /\ nth_error rows o = Some row /\
        heap_conseq h set row o s T x.
    Definition mfrom (D : list (sym * nat * fnode)) (x : fitem) : Prop :=
      exists s o T set row, In (s, o, T) D /\ nth_error cs o = Some set /\ nth_error rows o = Some row /\
        med_conseq h row o s T x.

    (* [D]: the symbols completed so far; [Q]: the items taken from the heap so far *)
    Definition uinv (D : list (sym * nat * fnode)) (Q H O : list fitem) : Prop :=
      (forall s o T, In (s, o, T) D -> sound_sym E pos j s o T /\
         (terminal R s \/ forall ts, den T ts -> exists x xs, In x Q /\ in_group R o s x /\
            ts = [Node (it_dot x) xs] /\ den (it_node x) xs)) /\
      (forall x, In x (Q ++ H) -> sound_heap E pos j x /\ hfrom D x) /\
      uniq_set (Q ++ H) /\
      (forall x, In x O -> sound_med E pos j x /\ mfrom D x) /\
      uniq_set O.

    Lemma hfrom_more : forall D e x, hfrom D x -> hfrom (e :: D) x.
    Proof. intros D e x (s & o & T & set & row & Hin & X). exists s, o, T, set, row. split; [now right|auto]. Qed.
    Lemma mfrom_more : forall D e x, mfrom D x -> mfrom (e :: D) x.
    Proof. intros D e x (s & o & T & set & row & Hin & X). exists s, o, T, set, row. split; [now right|auto]. Qed.

    Lemma pos_inc : forall a b x y, a < b -> nth_error pos a = Some x -> nth_error pos b = Some y -> x < y.
    Proof. destruct Hexact as (_ & X & _). exact X. Qed.

    (** consequences of different symbols share no tree *)
    Lemma conseq_disjoint : forall s o T set row s' o' T' set' row' x y ts,
      nth_error cs o = Some set -> nth_error cs o' = Some set' ->
      sound_sym E pos j s o T -> sound_sym E pos j s' o' T' ->
      heap_conseq h set row o s T x -> heap_conseq h set' row' o' s' T' y ->
      key x = key y -> den (it_node x) ts -> den (it_node y) ts -> s = s' /\ o = o'.
    Proof.
      intros s o T set row s' o' T' set' row' x y ts Hset Hset' SS SS' Hx Hy Ek Dx Dy.
      assert (Ek1 : it_dot x = it_dot y) by (unfold key in Ek; congruence).
      assert (Ek2 : it_origin x = it_origin y) by (unfold key in Ek; congruence).
      destruct Hx as [(it & r & B & Hit & Hr & Erhs & _ & ->)|(d & r & T0 & Hr & Erhs & _ & _ & _ & ->)];
      destruct Hy as [(it' & r' & B' & Hit' & Hr' & Erhs' & _ & ->)|(d' & r' & T0' & Hr' & Erhs' & _ & _ & _ & ->)];
        cbn [adv it_dot it_origin it_node] in *; subst; try (rewrite <- Ek1 in Hr'); try (rewrite Ek1 in Hr);
        assert (r' = r) by congruence; subst r'; try congruence.
      - split; [congruence|].
        destruct Hexact as (HL & Hinc & Hs & _).
        destruct SS as (m & Hm & _ & Hall). destruct SS' as (m' & Hm' & _ & Hall').
        destruct (Hs _ _ _ Hm Hset) as (_ & Hsnd & _). destruct (Hs _ _ _ Hm' Hset') as (_ & Hsnd' & _).
        destruct (Hsnd it Hit) as (_ & i & Hi & _ & HM). destruct (Hsnd' it' Hit') as (_ & i' & Hi' & _ & HM').
        rewrite Ek2 in Hi. assert (i' = i) by congruence. subst i'.
        inversion Dx as [|l rr xs ys Dl Dr|]; subst. inversion Dy as [|l rr xs' ys' Dl' Dr' E1 Exy|]; subst.
        destruct (HM _ Dl) as (t1 & -> & M1). destruct (HM' _ Dl') as (t1' & -> & M1').
        cbn in Exy. injection Exy as <- _.
        pose proof (proj1 (proj2 (proj2 (chart_width E))) _ _ _ _ M1).
        pose proof (proj1 (proj2 (proj2 (chart_width E))) _ _ _ _ M1').
        assert (m = m') by lia. clear H H0. subst m'.
        exact (pos_inj pos o o' m Hinc Hm Hm').
      - split; congruence.
    Qed.

    Lemma med_conseq_key : forall s o T row s' o' T' row' x y,
      med_conseq h row o s T x -> med_conseq h row' o' s' T' y -> key x = key y -> s = s' /\ o = o'.
    Proof.
      intros s o T row s' o' T' row' x y (d & r & C & T0 & Hr & Erhs & _ & _ & _ & ->)
        (d' & r' & C' & T0' & Hr' & Erhs' & _ & _ & _ & ->) Ek.
      unfold key in Ek. cbn in Ek. injection Ek as -> ->. assert (r = r') by congruence. subst. split; congruence.
    Qed.

    Lemma prod_nodup : forall l r, NoDup (trees l) -> NoDup (trees r) ->
      (forall ts, den l ts -> exists t, ts = [t]) -> NoDup (trees (FProd l r)).
    Proof.
      intros l r Hl Hr H1. cbn [trees]. apply NoDup_flat_map; auto.
      - intros xs Hxs. apply NoDup_map_on; auto. intros a b _ _ X. now apply app_inv_head in X.
      - intros xs ys b Hx Hy Bx By. apply trees_den in Hx, Hy. destruct (H1 _ Hx) as (t & ->), (H1 _ Hy) as (t' & ->).
        apply in_map_iff in Bx, By. destruct Bx as (u & <- & _), By as (u' & X & _). cbn in X. congruence.
    Qed.

    Lemma set_facts : forall o set p, nth_error pos o = Some p -> nth_error cs o = Some set ->
      NoDup set /\ forall it, In it set -> NoDup (trees (it_node it)) /\
        (exists ts, den (it_node it) ts) /\ forall ts, den (it_node it) ts -> exists t, ts = [t].
    Proof.
      intros o set p Hp Hset. destruct Hexact as (_ & _ & Hs & _). destruct (Hs _ _ _ Hp Hset) as (_ & Hsnd & _).
      pose proof (Huniq set (nth_error_In _ _ Hset)) as Hu. split.
      - apply uniq_set_nodup; [auto|]. intros it Hit. destruct (Hsnd it Hit) as (_ & i & _ & X & _). exact X.
      - intros it Hit. split; [eapply uniq_set_item; eauto|]. destruct (Hsnd it Hit) as (_ & i & _ & X & Y).
        split; [exact X|]. intros ts Hts. destruct (Y ts Hts) as (t & -> & _). eauto.
    Qed.

    Lemma add_entry : forall D Q H O s o T nh nm H', uinv D Q H O -> completes o s T nh nm ->
      sound_sym E pos j s o T -> NoDup (trees T) ->
      (terminal R s \/ forall ts, den T ts -> exists x xs, In x Q /\ in_group R o s x /\
            ts = [Node (it_dot x) xs] /\ den (it_node x) xs) ->
      (forall T' ts, In (s, o, T') D -> den T ts -> den T' ts -> False) -> Permutation H' (nh ++ H) ->
      uinv ((s, o, T) :: D) Q H' (O ++ nm).
    Proof.
      intros D Q H O s o T nh nm H' (UD & UH & NH & UO & NO) Hc SS NT Hsrc Hnew Pm.
      destruct (completes_sound P R nsyms FIRST FOLLOW root E pos cs rows k Hexact _ _ _ _ _ Hc SS) as [Snh Snm].
      destruct Hc as (set & row & Hset & Hrow & Inh & Inm & Nnm & Nnh & _).
      pose proof SS as (m & Hm & _ & _).
      destruct (set_facts o set m Hm Hset) as [Uk Ut]. specialize (Nnh Uk).
      assert (Tnh : forall x, In x nh -> NoDup (trees (it_node x))).
      { intros x Hx. apply Inh in Hx.
        destruct Hx as [(it & r & B & Hit & Hr & Erhs & _ & ->)|(d & r & T0 & Hr & Erhs & _ & _ & _ & ->)];
          cbn [adv it_node]; [|auto].
        destruct (Ut it Hit) as (X1 & _ & X3). now apply prod_nodup. }
      assert (Pm' : Permutation (Q ++ H') (nh ++ Q ++ H)).
      { rewrite Pm, !app_assoc. apply Permutation_app_tail, Permutation_app_comm. }
      split; [|split; [|split; [|split]]].
      - intros s' o' T' [X|X]; [injection X as <- <- <-; auto|auto].
      - intros x Hx. apply (Permutation_in _ Pm') in Hx. apply in_app_iff in Hx. destruct Hx as [Hx|Hx].
        + split; [auto|]. exists s, o, T, set, row. split; [now left|]. split; [auto|]. split; [auto|]. now apply Inh.
        + destruct (UH x Hx) as (A1 & A2). split; [auto|]. now apply hfrom_more.
      - unfold uniq_set. rewrite (Permutation_flat_map labels Pm'), flat_map_app. apply NoDup_app_iff.
        split; [|split; [exact NH|]].
        + apply labels_distinct; auto. intros x y ts Hx Hy Ek Dx Dy. apply Inh in Hx, Hy.
          assert (Ek1 : it_dot x = it_dot y) by (unfold key in Ek; congruence).
          assert (Ek2 : it_origin x = it_origin y) by (unfold key in Ek; congruence).
          destruct Hx as [(it & r & B & Hit & Hr & Erhs & _ & ->)|(d & r & T0 & Hr & Erhs & _ & _ & _ & ->)];
          destruct Hy as [(it' & r' & B' & Hit' & Hr' & Erhs' & _ & ->)|(d' & r' & T0' & Hr' & Erhs' & _ & _ & _ & ->)];
            cbn [adv it_dot it_origin it_node] in *; subst; try (rewrite <- Ek1 in Hr'); try (rewrite Ek1 in Hr);
            assert (r' = r) by congruence; subst r'; try congruence.
          inversion Dx as [|l r0' xs ys Dl Dr|]; subst. inversion Dy as [|l r0' xs' ys' Dl' Dr' E1 Exy|]; subst.
          destruct (Ut it Hit) as (_ & _ & X3). destruct (Ut it' Hit') as (_ & _ & X3').
          destruct (X3 _ Dl) as (t1 & ->). destruct (X3' _ Dl') as (t1' & ->). cbn in Exy. injection Exy as <- _.
          assert (it = it'); [|now subst].
          apply (uniq_set_inj set it it' [t1']); auto.
          apply Huniq. eapply nth_error_In; eauto.
        + intros [ky ts] X Y. apply in_flat_map in X, Y. destruct X as (x & Hx & X), Y as (y & Hy & Y).
          apply labels_in in X, Y. destruct X as [-> X], Y as [Ek Y].
          destruct (UH y Hy) as (_ & s' & o' & T' & set' & row' & HD' & Hset' & Hrow' & Cy).
          apply Inh in Hx.
          destruct (conseq_disjoint s o T set row s' o' T' set' row' x y ts) as [E1 E2]; auto.
          { now apply UD. }
          subst s' o'. assert (set' = set) by congruence. subst set'.
          assert (Ek1 : it_dot x = it_dot y) by (unfold key in Ek; congruence).
          assert (Ek2 : it_origin x = it_origin y) by (unfold key in Ek; congruence).
          assert (HE : exists us, den T us /\ den T' us).
          { destruct Hx as [(it & r & B & Hit & Hr & Erhs & _ & ->)|(d & r & T0 & Hr & Erhs & _ & _ & _ & ->)];
            destruct Cy as [(it' & r' & B' & Hit' & Hr' & Erhs' & _ & ->)|(d' & r' & T0' & Hr' & Erhs' & _ & _ & _ & ->)];
              cbn [adv it_dot it_origin it_node] in *; subst; try (rewrite <- Ek1 in Hr'); try (rewrite Ek1 in Hr);
              assert (r' = r) by congruence; subst r'; try congruence.
            - inversion X as [|l r0' xs ys Dl Dr|]; subst. inversion Y as [|l r0' xs' ys' Dl' Dr' E1 Exy|]; subst.
              destruct (Ut it Hit) as (_ & _ & X3). destruct (Ut it' Hit') as (_ & _ & X3').
              destruct (X3 _ Dl) as (t1 & ->). destruct (X3' _ Dl') as (t1' & ->). cbn in Exy. injection Exy as _ <-. eauto.
            - eauto. }
          destruct HE as (us & Z1 & Z2). exact (Hnew T' us HD' Z1 Z2).
      - intros x Hx. apply in_app_iff in Hx. destruct Hx as [Hx|Hx].
        + destruct (UO x Hx) as (A1 & A3). split; [auto|]. now apply mfrom_more.
        + split; [auto|]. exists s, o, T, set, row. split; [now left|]. split; [auto|]. split; [auto|]. now apply Inm.
      - unfold uniq_set. rewrite flat_map_app. apply NoDup_app_iff. split; [exact NO|]. split.
        + apply labels_distinct; [now apply NoDup_map_inv in Nnm| |].
          * intros x Hx. apply Inm in Hx. destruct Hx as (d & r & C & T0 & Hr & Erhs & _ & _ & _ & ->). auto.
          * intros x y ts Hx Hy Ek _ _. apply Inm in Hx, Hy. 
            destruct Hx as (d & r & C & T0 & Hr & Erhs & _ & _ & _ & ->).
            destruct Hy as (d' & r' & C' & T0' & Hr' & Erhs' & _ & _ & _ & ->). unfold key in Ek. cbn in Ek. congruence.
        + intros [ky ts] X Y. apply in_flat_map in X, Y. destruct X as (x & Hx & X), Y as (y & Hy & Y).
          apply labels_in in X, Y. destruct X as [-> X], Y as [Ek Y].
          destruct (UO x Hx) as (_ & s' & o' & T' & set' & row' & HD' & Hset' & Hrow' & Cx).
          apply Inm in Hy. destruct (med_conseq_key _ _ _ _ _ _ _ _ _ _ Cx Hy Ek) as [-> ->].
          apply (Hnew T' ts HD').
          * destruct Hy as (d & r & C & T0 & Hr & Erhs & _ & _ & _ & ->). exact Y.
          * destruct Cx as (d & r & C & T0 & Hr & Erhs & _ & _ & _ & ->). exact X.
    Qed.

    (** taking a group from the heap *)
    Lemma uinv_pop : forall D Q H O popped rest, uinv D Q H O -> Permutation H (popped ++ rest) ->
      uinv D (Q ++ popped) rest O.
    Proof.
      intros D Q H O popped rest (UD & UH & NH & UO & NO) Pm.
      assert (Pm' : Permutation (Q ++ H) ((Q ++ popped) ++ rest)) by (rewrite Pm, app_assoc; apply Permutation_refl).
      split; [|split; [|split; [|auto]]].
      - intros s o T HD. destruct (UD s o T HD) as [A1 A2]. split; [auto|]. destruct A2 as [A2|A2]; [auto|].
        right. intros ts Hts. destruct (A2 ts Hts) as (x & xs & Hx & X). exists x, xs. split; [apply in_app_iff; auto|auto].
      - intros x Hx. apply UH. eapply Permutation_in; [symmetry; exact Pm'|auto].
      - unfold uniq_set in *. rewrite <- (Permutation_flat_map labels Pm'). exact NH.
    Qed.

    Lemma uniq_sub : forall l l', uniq_set (l ++ l') -> uniq_set l /\ uniq_set l'.
    Proof. intros l l' H. unfold uniq_set in *. rewrite flat_map_app in H. apply NoDup_app_iff in H. tauto. Qed.

    Lemma group_nodup : forall popped o A, uniq_set popped ->
      (forall x, In x popped -> in_group R o A x) -> NoDup (trees (FSum A (map alt popped))).
    Proof.
      intros popped o A NH Hg.
      assert (Et : trees (FSum A (map alt popped)) =
        map (fun p : (nat * nat) * list tree => [Node (fst (fst p)) (snd p)]) (flat_map labels popped)).
      { cbn [trees]. clear. induction popped as [|x l IH]; [reflexivity|].
        cbn [map flat_map]. rewrite map_app, IH. f_equal. unfold labels. rewrite map_map. reflexivity. }
      rewrite Et. apply NoDup_map_on; auto.
      assert (Ho : forall p, In p (flat_map labels popped) -> snd (fst p) = o).
      { intros p Hp. apply in_flat_map in Hp. destruct Hp as (x & Hx & Hp). apply in_map_iff in Hp.
        destruct Hp as (ts & <- & _). now apply Hg. }
      intros [[d1 o1] t1] [[d2 o2] t2] H1 H2 X. apply Ho in H1, H2. cbn in *. congruence.
    Qed.

    Lemma sound_heap_dot : forall x, sound_heap E pos j x -> exists r, nth_error R (it_dot x) = Some r.
    Proof.
      intros x (i & _ & [ts Hts] & Hall). eapply Comp_rule. apply Hall. exact Hts.
    Qed.

    Lemma group_lhs : forall popped o A, popped <> [] -> (forall x, In x popped -> sound_heap E pos j x) ->
      (forall x, In x popped -> in_group R o A x) -> exists r, In r R /\ p_lhs r = A.
    Proof.
      intros popped o A Hne Hs Hg. destruct popped as [|p pt]; [congruence|].
      destruct (Hg p (or_introl eq_refl)) as [X1 X2].
      destruct (sound_heap_dot p) as [r Hr]; [apply Hs; now left|]. exists r. split; [eapply nth_error_In; eauto|].
      rewrite <- X2. unfold Core1.lhs_of. now rewrite Hr.
    Qed.

    Lemma den_group : forall A popped ts, den (FSum A (map alt popped)) ts ->
      exists x xs, In x popped /\ ts = [Node (it_dot x) xs] /\ den (it_node x) xs.
    Proof.
      intros A popped ts H. inversion H as [| |s alts d T xs Hin Hd E1 E2]; subst.
      apply in_map_iff in Hin. destruct Hin as (x & Ex & Hx). unfold alt in Ex. injection Ex as <- <-. eauto.
    Qed.

    (** how the completed symbols and the taken items grow in a step *)
    Definition grown (D : list (sym * nat * fnode)) (Q H : list fitem) (D' : list (sym * nat * fnode)) (Q' : list fitem) : Prop :=
      exists o A popped rest, Q' = Q ++ popped /\ Permutation H (popped ++ rest) /\
        (exists top, In top popped /\ forall x, In x H -> ile x top) /\
        (forall x, In x popped -> in_group R o A x) /\
        (D' = D \/ D' = (A, o, FSum A (map alt popped)) :: D).

    Lemma cstep_uniq : forall D Q H O H' O', uinv D Q H O -> cstep H O H' O' ->
      exists D' Q', uinv D' Q' H' O' /\ grown D Q H D' Q'.
    Proof.
      intros D Q H O H' O' HU Hs.
      destruct Hs as [H O o A popped rest nh nm H' Hne Pm Hmax Hg Hr Hk Hc Pm'|H O o A popped rest Hne Pm Hmax Hg Hr Hk].
      2:{ exists D, (Q ++ popped). split; [eapply uinv_pop; eauto|]. exists o, A, popped, rest. auto 6. }
      pose proof (uinv_pop _ _ _ _ _ _ HU Pm) as HU'.
      destruct HU' as (UD & UH & NH & UO & NO) eqn:EU. clear EU.
      assert (SP : forall x, In x popped -> sound_heap E pos j x).
      { intros x Hx. apply UH. rewrite !in_app_iff. auto. }
      destruct (group_lhs popped o A Hne SP Hg) as (rA & HrA & ElA).
      assert (SG : sound_sym E pos j A o (FSum A (map alt popped))) by (apply sound_group; auto).
      assert (Src : forall ts, den (FSum A (map alt popped)) ts -> exists x xs, In x (Q ++ popped) /\ in_group R o A x /\
            ts = [Node (it_dot x) xs] /\ den (it_node x) xs).
      { intros ts Hts. destruct (den_group _ _ _ Hts) as (x & xs & Hx & X). exists x, xs.
        split; [apply in_app_iff; auto|]. auto. }
      exists ((A, o, FSum A (map alt popped)) :: D), (Q ++ popped). split; [|exists o, A, popped, rest; auto 6].
      apply (add_entry D (Q ++ popped) rest O A o (FSum A (map alt popped)) nh nm H'); auto.
      - apply (group_nodup popped o A); [|auto]. apply uniq_sub in NH. destruct NH as [NH _]. apply uniq_sub in NH. tauto.
      - intros T' ts HD Hts Hts'. destruct HU as (UD0 & _ & NH0 & _). destruct (UD0 _ _ _ HD) as [_ [Ht|Ht]].
        { elim (Ht rA HrA ElA). }
        destruct (Ht ts Hts') as (y & ys & Hy & Gy & Ey & Dy). destruct (den_group _ _ _ Hts) as (x & xs & Hx & Ex & Dx).
        rewrite Ex in Ey. injection Ey as E1 E2. subst ys. destruct (Hg x Hx) as [Ox _], Gy as [Oy _].
        unfold uniq_set in NH. rewrite !flat_map_app in NH. apply NoDup_app_iff in NH. destruct NH as (NH & _).
        apply NoDup_app_iff in NH. destruct NH as (_ & _ & Hd). apply (Hd (key y, xs)).
        + apply in_flat_map. exists y. split; [auto|]. now apply labels_in.
        + apply in_flat_map. exists x. split; [auto|]. apply labels_in. split; [unfold key; congruence|auto].
    Qed.

    Lemma csteps_uniq : forall n H O H' O', csteps n H O H' O' -> forall D Q, uinv D Q H O ->
      exists D' Q', uinv D' Q' H' O'.
    Proof.
      induction 1 as [|n H O H1 O1 H2 O2 Hs _ IH]; intros D Q HU; [eauto|].
      destruct (cstep_uniq _ _ _ _ _ _ HU Hs) as (D1 & Q1 & HU1 & _). eapply IH; eauto.
    Qed.

    (** *** One item with the dot before eof *)
    Definition dinv (H O : list fitem) : Prop :=
      (forall x, In x H -> sound_heap E pos j x) /\ (forall x, In x O -> sound_med E pos j x) /\ one O /\
      ((exists x, In x O /\ it_dot x = d0) ->
         terminal R g0 \/ forall x, In x H -> it_origin x = 0 /\ lhs_of (it_dot x) <> g0).

    Lemma root_not_g0 : root <> g0.
    Proof. intros X. apply (Hrtop r0); [eapply nth_error_In; eauto|]. rewrite Er0, X. now left. Qed.

    Lemma new_low : forall s T nh nm, completes 0 s T nh nm -> (exists r, In r R /\ p_lhs r = s) ->
      forall x, In x nh -> it_origin x = 0 /\ lhs_of (it_dot x) <> g0.
    Proof.
      intros s T nh nm (set & row & Hset & Hrow & Inh & _) (r & Hr & El) x Hx. apply Inh in Hx.
      destruct Hx as [(it & r' & B & Hit & _)|(d & r' & T0 & Hr' & Erhs & _ & _ & _ & ->)].
      - destruct (exact_static P R nsyms nall FIRST FOLLOW root wf _ _ _ _ Hexact _ _ Hset) as (_ & Ho & _).
        specialize (Ho it Hit). lia.
      - cbn. split; [auto|]. unfold Core1.lhs_of. rewrite Hr'. intros X.
        pose proof (Hg0 r' (nth_error_In _ _ Hr') X) as Y. rewrite Erhs in Y. injection Y as Y. subst s.
        apply (Hsof r); congruence.
    Qed.

    Lemma at_start : forall x, sound_heap E pos j x -> it_origin x = 0 -> lhs_of (it_dot x) = root \/ lhs_of (it_dot x) = g0.
    Proof.
      intros x (i & Hi & [ts Hts] & Hall) Ho. rewrite Ho, Hpos0 in Hi. injection Hi as <-.
      exact (comp_start E _ _ _ Hplain (Hall ts Hts)).
    Qed.

    Lemma cstep_one : forall H O H' O', dinv H O -> cstep H O H' O' -> dinv H' O'.
    Proof.
      intros H O H' O' (SH & SO & ON & LO) Hs.
      destruct Hs as [H O o A popped rest nh nm H' Hne Pm Hmax Hg Hr Hk Hc Pm'|H O o A popped rest Hne Pm Hmax Hg Hr Hk].
      2:{ assert (Sub : forall x, In x rest -> In x H).
          { intros x Hx. eapply Permutation_in; [symmetry; exact Pm|]. apply in_app_iff; auto. }
          split; [auto|]. split; [auto|]. split; [auto|]. intros X. destruct (LO X) as [Y|Y]; auto. }
      assert (Subr : forall x, In x rest -> In x H).
      { intros x Hx. eapply Permutation_in; [symmetry; exact Pm|]. apply in_app_iff; auto. }
      assert (Subp : forall x, In x popped -> In x H).
      { intros x Hx. eapply Permutation_in; [symmetry; exact Pm|]. apply in_app_iff; auto. }
      assert (HA : exists r, In r R /\ p_lhs r = A) by (apply (group_lhs popped o A); auto).
      assert (SG : sound_sym E pos j A o (FSum A (map alt popped))) by (apply sound_group; auto).
      destruct (completes_sound P R nsyms FIRST FOLLOW root E pos cs rows k Hexact _ _ _ _ _ Hc SG) as [Snh Snm].
      assert (SH' : forall x, In x H' -> sound_heap E pos j x).
      { intros x Hx. apply (Permutation_in _ Pm') in Hx. apply in_app_iff in Hx. destruct Hx; auto. }
      assert (SO' : forall x, In x (O ++ nm) -> sound_med E pos j x).
      { intros x Hx. apply in_app_iff in Hx. destruct Hx; auto. }
      (* the new item with the dot before eof *)
      assert (New : forall x, In x nm -> it_dot x = d0 ->
         A = g0 /\ o = 0 /\ x = mkItem d0 o (FSum A (map alt popped))).
      { intros x Hx Ed. pose proof (Snm x Hx) as (i & Hi & [ts Hts] & Hall).
        destruct (Hall ts Hts) as (t & _ & HM). rewrite Ed in HM. pose proof (med_start _ _ _ _ Hplain HM) as E0. subst i.
        destruct Hc as (set & row & _ & _ & _ & Inm & _). apply Inm in Hx.
        destruct Hx as (d & r & C & T0 & Hr' & Erhs & _ & _ & _ & ->). cbn in *. subst d.
        assert (r = r0) by congruence. subst r. rewrite Er0 in Erhs. injection Erhs as E1 _. split; [auto|]. split; [|auto].
        destruct Hexact as (_ & Hinc & _). exact (pos_inj pos o 0 0 Hinc Hi Hpos0). }
      assert (Low : o = 0 -> A <> g0 -> (forall x, In x H -> it_origin x = 0 /\ lhs_of (it_dot x) <> g0) ->
         forall x, In x H' -> it_origin x = 0 /\ lhs_of (it_dot x) <> g0).
      { intros Eo _ Hx x Hx'. apply (Permutation_in _ Pm') in Hx'. apply in_app_iff in Hx'. destruct Hx' as [Hx'|Hx']; [|auto].
        subst o. eapply new_low; eauto. }
      destruct popped as [|p0 pt] eqn:Ep; [congruence|]. rewrite <- Ep in *.
      assert (Hp0 : In p0 popped) by (rewrite Ep; now left).
      split; [auto|]. split; [auto|]. split.
      - intros x y Hx Hy Ex Ey. apply in_app_iff in Hx, Hy.
        assert (Cross : forall u v, In u O -> In v nm -> it_dot u = d0 -> it_dot v = d0 -> False).
        { intros u v Hu Hv Eu Ev. destruct (New v Hv Ev) as (EA & _ & _). subst A.
          destruct LO as [Ht|Hl]; [eauto| |].
          - destruct HA as (r & Hr' & El). now elim (Ht r Hr').
          - destruct (Hl p0 (Subp p0 Hp0)) as [_ X]. destruct (Hg p0 Hp0) as [_ Y]. now elim X. }
        destruct Hx as [Hx|Hx], Hy as [Hy|Hy].
        + now apply ON.
        + elim (Cross x y Hx Hy Ex Ey).
        + elim (Cross y x Hy Hx Ey Ex).
        + destruct (New x Hx Ex) as (_ & _ & ->), (New y Hy Ey) as (_ & _ & ->). reflexivity.
      - intros (x & Hx & Ex). apply in_app_iff in Hx. destruct Hx as [Hx|Hx].
        + destruct LO as [Ht|Hl]; [eauto|auto|]. right. destruct (Hl p0 (Subp p0 Hp0)) as [O0 X].
          destruct (Hg p0 Hp0) as [Y1 Y2]. apply Low; [congruence|congruence|auto].
        + right. destruct (New x Hx Ex) as (EA & Eo & _). subst A o. destruct Hmax as (top & Htop & Hm).
          destruct (Hg top Htop) as [To Tl].
          intros y Hy. apply (Permutation_in _ Pm') in Hy. apply in_app_iff in Hy. destruct Hy as [Hy|Hy].
          { eapply new_low; eauto. }
          assert (Y0 : forall y, In y rest -> it_origin y = 0).
          { intros z Hz. pose proof (Hm z (Subr z Hz)) as X. unfold ile in X. rewrite item_leb_spec in X. lia. }
          split; [auto|]. intros Yl. destruct Hr as [->|(z & Hz & Hzm & Hng)]; [destruct Hy|].
          assert (Zl : lhs_of (it_dot z) = root).
          { destruct (at_start z) as [X|X]; auto. elim Hng. split; auto. }
          destruct (sound_heap_dot y) as [ry Hry]; [auto|]. destruct (sound_heap_dot z) as [rz Hrz]; [auto|].
          destruct (sound_heap_dot top) as [rt Hrt]; [auto|].
          unfold Core1.lhs_of in Yl, Zl, Tl. rewrite Hry in Yl. rewrite Hrz in Zl. rewrite Hrt in Tl.
          pose proof (Hzm y Hy) as X1. unfold ile in X1. rewrite item_leb_spec in X1.
          pose proof (Hm z (Subr z Hz)) as X2. unfold ile in X2. rewrite item_leb_spec in X2.
          pose proof (Y0 y Hy). pose proof (Y0 z Hz).
          assert (D1 : it_dot y <= it_dot z) by lia. assert (D2 : it_dot z <= it_dot top) by lia.
          pose proof (Hsorted _ _ _ _ D1 Hry Hrz). pose proof (Hsorted _ _ _ _ D2 Hrz Hrt).
          apply root_not_g0. unfold sym in *. lia.
    Qed.

    Lemma csteps_one : forall n H O H' O', csteps n H O H' O' -> dinv H O -> dinv H' O'.
    Proof. induction 1 as [|n H O H1 O1 H2 O2 Hs _ IH]; intros HU; [auto|]. apply IH. eapply cstep_one; eauto. Qed.

    Hypothesis Hhint : hint_ok nsyms h.
    Notation cstate := (cstate R cs rows h).

    Lemma scans_uniq : forall ws st O D st',
      cstate st O -> uinv D [] (r_complete st) O -> one O ->
      (forall s v, In (s, v) ws -> s < nall /\ In (s, v) (eW E k) /\ terminal R s) ->
      NoDup (map fst ws) -> (forall s o T, In (s, o, T) D -> ~ In s (map fst ws)) ->
      ((exists x, In x O /\ it_dot x = d0) -> terminal R g0 /\ ~ In g0 (map fst ws)) ->
      (forall s o T T', In (s, o, T) D -> In (s, o, T') D -> T = T') ->
      scans P g ws st = Ret st' ->
      exists O' D', cstate st' O' /\ uinv D' [] (r_complete st') O' /\ dinv (r_complete st') O' /\
        forall s o T T', In (s, o, T) D' -> In (s, o, T') D' -> T = T'.
    Proof.
      induction ws as [|[s v] ws IH]; intros st O D st' C HU ON Hws Hnd HD HG HF Hrun.
      - injection Hrun as <-. exists O, D. split; [auto|]. split; [auto|]. split; [|exact HF]. destruct HU as (_ & UH & _ & UO & _).
        split; [intros x Hx; now apply UH|]. split; [intros x Hx; now apply UO|]. split; [auto|].
        intros X. left. now apply HG.
      - cbn [scans foldM fst snd] in Hrun. unfold scan at 1 in Hrun.
        rewrite (cstate_earleme R E pos cs rows k Hlast Hcs st O C) in Hrun.
        cbn [unwrap bind f_leaf free_forest] in Hrun.
        destruct (Hws s v (or_introl eq_refl)) as (Hs & HvW & Hterm).
        assert (C1 : cstate (set_forest st (r_forest st)) O) by exact C.
        destruct (complete_completes P g R nsyms nall FIRST FOLLOW Hleo wf tok cs rows h
                    (exact_static P R nsyms nall FIRST FOLLOW root wf _ _ _ _ Hexact) Hhint _ O (length cs - 1) s (FLeaf s v) C1)
          as (st1 & nh & nm & E1 & Hc & P1 & C2 & _ & L1); [lia|auto|].
        rewrite E1 in Hrun. cbn [bind] in Hrun.
        assert (SS : sound_sym E pos j s (length cs - 1) (FLeaf s v)).
        { exists k. split; [auto|]. split; [exists [Leaf s v]; constructor|].
          intros ts Hts. inversion Hts; subst. exists (Leaf s v). split; auto. now apply Sym_scan. }
        cbn [map fst] in Hnd, HG. inversion Hnd as [|? ? Hn Hnd']; subst.
        destruct (completes_sound P R nsyms FIRST FOLLOW root E pos cs rows k Hexact _ _ _ _ _ Hc SS) as [Snh Snm].
        assert (New : forall x, In x nm -> it_dot x = d0 -> s = g0 /\ x = mkItem d0 (length cs - 1) (FLeaf s v)).
        { intros x Hx Ed. destruct Hc as (set & row & _ & _ & _ & Inm & _). apply Inm in Hx.
          destruct Hx as (d & r & B & T0 & Hr' & Erhs & _ & _ & _ & ->). cbn in *. subst d.
          assert (r = r0) by congruence. subst r. rewrite Er0 in Erhs. injection Erhs as X1 _. now split. }
        apply (IH st1 (O ++ nm) ((s, length cs - 1, FLeaf s v) :: D) st'); auto.
        + apply (add_entry D [] (r_complete st) O s (length cs - 1) (FLeaf s v) nh nm); auto.
          * cbn. constructor; [intros []|constructor].
          * intros T' ts Hin _ _. apply (HD _ _ _ Hin). now left.
        + assert (Cross : forall u v', In u O -> In v' nm -> it_dot u = d0 -> it_dot v' = d0 -> False).
          { intros u v' Hu Hv Eu Ev. destruct (New v' Hv Ev) as (EA & _). apply HG; [eauto|]. now left. }
          intros x y Hx Hy Ex Ey. apply in_app_iff in Hx, Hy. destruct Hx as [Hx|Hx], Hy as [Hy|Hy].
          * now apply ON.
          * elim (Cross x y Hx Hy Ex Ey).
          * elim (Cross y x Hy Hx Ey Ex).
          * destruct (New x Hx Ex) as (_ & ->), (New y Hy Ey) as (_ & ->). reflexivity.
        + intros s' v' X. apply Hws. now right.
        + intros s' o' T' [X|X] Y.
          * injection X as <- _ _. auto.
          * apply (HD _ _ _ X). now right.
        + intros (x & Hx & Ex). apply in_app_iff in Hx. destruct Hx as [Hx|Hx].
          * destruct HG as [G1 G2]; [eauto|]. split; [auto|]. intros Y. apply G2. now right.
          * destruct (New x Hx Ex) as [-> _]. auto.
        + intros s' o' T1 T2 [X|X] [Y|Y].
          * congruence.
          * injection X as <- _ _. elim (HD _ _ _ Y). now left.
          * injection Y as <- _ _. elim (HD _ _ _ X). now left.
          * eauto.
    Qed.
  End Pass.

  (** ** The invariant between steps *)
  Definition uniq_state (st : state) : Prop :=
    (forall i set, v_index (r_medial st) i = Ret set -> uniq_set set) /\
    (forall set, v_last (r_medial st) = Ret set -> uniq_set set /\ one set).

  Lemma uniq_rep : forall (st : state) cs O, rep (r_medial st) cs O ->
    (uniq_state st <-> (forall set, In set (cs ++ [O]) -> uniq_set set) /\ one O).
  Proof using Type.
    intros st cs O Hrep. split.
    - intros [H1 H2]. destruct (H2 O) as [H3 H4]; [eapply rep_last; eauto|]. split; [|auto].
      intros set Hin. apply in_app_iff in Hin. destruct Hin as [Hin|[<- | []]]; [|auto].
      apply In_nth_error in Hin. destruct Hin as [i Hi]. apply (H1 i). eapply rep_index; eauto.
    - intros [H H']. split.
      + intros i set Hi. destruct (lt_dec i (length cs)) as [Hl|Hl].
        * destruct (nth_error cs i) as [c|] eqn:Ec; [|apply nth_error_None in Ec; now elim (Nat.lt_irrefl i (Nat.lt_le_trans _ _ _ Hl Ec))].
          rewrite (rep_index _ _ _ _ _ Hrep Ec) in Hi. injection Hi as <-. apply H, in_app_iff. left.
          eapply nth_error_In; eauto.
        * rewrite (rep_index_oob _ _ _ _ Hrep (proj1 (Nat.nlt_ge _ _) Hl)) in Hi. discriminate.
      + intros set Hi. rewrite (rep_last _ _ _ Hrep) in Hi. injection Hi as <-. split; [|auto].
        apply H, in_app_iff. right. now left.
  Qed.

  Lemma uniq_perm : forall s1 s2, Permutation s1 s2 -> uniq_set s1 /\ one s1 -> uniq_set s2 /\ one s2.
  Proof.
    intros s1 s2 Pm [H1 H2]. split.
    - unfold uniq_set in *. now rewrite <- (Permutation_flat_map labels Pm).
    - intros x y Hx Hy. apply (Permutation_in _ (Permutation_sym Pm)) in Hx, Hy. now apply H2.
  Qed.

  (** distinct tokens at a location *)
  Definition toks_ok (ws : list (sym * nat)) : Prop :=
    NoDup (map fst ws) /\ forall s v, In (s, v) ws -> terminal R s.

  Lemma first_state : forall E Z k pos st, Inv E Z k pos st ->
    exists cs, rep (r_medial (set_hint_field (begin_earleme P st) (ehint E (S k)))) cs [] /\
      0 < length cs /\ length cs = length pos /\
      nth_error pos (length cs - 1) = Some k /\ exact E pos cs (r_predicted st) /\
      cstate R cs (r_predicted st) (ehint E (S k)) (set_hint_field (begin_earleme P st) (ehint E (S k))) [] /\
      r_complete (set_hint_field (begin_earleme P st) (ehint E (S k))) = [] /\
      (uniq_state st -> forall set, In set cs -> uniq_set set).
  Proof using Hleo.
    clear - Hleo.
    intros E Z k pos st [(cs0 & O0 & Hrep0 & HL0 & Hx0) Hlast0 Hrows0 Hheap0].
    exists (cs0 ++ [O0]). unfold begin_earleme. rewrite Hleo.
    assert (HLc : length (cs0 ++ [O0]) = length pos). { rewrite app_length. simpl. lia. }
    assert (Hr : rep (v_next_set (r_medial st)) (cs0 ++ [O0]) []) by now apply rep_next_set.
    split; [exact Hr|]. split; [lia|]. split; [auto|]. split; [now rewrite HLc|]. split; [auto|].
    split.
    { split; [exact Hr|]. split; [reflexivity|]. split; [reflexivity|]. cbn. rewrite Hheap0.
      split; [apply heap_ok_nil|]. intros it []. }
    split; [exact Hheap0|]. intros HU. apply (proj1 (uniq_rep _ _ _ Hrep0) HU).
  Qed.

  Lemma uinv_nil : forall E pos cs rows k, uinv E pos cs rows k [] [] [] [].
  Proof.
    intros. split; [intros s o T []|]. split; [intros x []|]. split; [constructor|].
    split; [intros x []|constructor].
  Qed.

  Section Step.
  Variable rm : state -> res state.
  Hypothesis Hrm : remove_ok rm.

  Theorem step_uniq : forall E Z k pos st, Inv E Z k pos st ->
    hint_ok nsyms (ehint E (S k)) ->
    (forall s v, In (s, v) (eW E k) -> s < nall) -> toks_ok (eW E k) -> uniq_state st ->
    nth_error pos 0 = Some 0 -> plain E ->
    forall fuel st', step P g rm (ekeep E (S k)) fuel (ehint E (S k)) (eW E k) st = Ret (true, st') ->
    uniq_state st'.
  Proof.
    intros E Z k pos st HI Hh HW [HT1 HT2] HU Hpos0 Hplain fuel st' Hrun.
    destruct (first_state E Z k pos st HI) as (cs & Hrep1 & Hcs & HLc & Hlast & Hx0 & C0 & Hc0 & Hu0).
    specialize (Hu0 HU). unfold step in Hrun.
    set (st0 := set_hint_field (begin_earleme P st) (ehint E (S k))) in *.
    destruct (scans P g (eW E k) st0) as [st1| |] eqn:Esc; try discriminate. cbn [bind] in Hrun.
    destruct (scans_uniq E pos cs (r_predicted st) k Hx0 Hlast Hcs Hu0 Hh (eW E k) st0 [] [] st1)
      as (O1 & D1 & C1 & U1 & V1 & _); auto.
    { rewrite Hc0. apply uinv_nil. }
    { intros x y []. }
    { intros s v Hsv. split; [eapply HW; eauto|]. split; [auto|]. eapply HT2; eauto. }
    { intros (x & [] & _). }
    { intros s o T T' []. }
    destruct (is_exhausted st1) as [[|]| |] eqn:Eex; try discriminate. cbn [bind] in Hrun.
    destruct (CyclicRun.complete_sums_any P g R nsyms nall FIRST FOLLOW Hleo wf tok cs (r_predicted st) (ehint E (S k))
                  (ekeep E (S k)) (exact_static _ _ _ _ _ _ _ wf _ _ _ _ Hx0) Hh fuel st1 O1 C1)
        as [Hno|(n & st2 & O2 & _ & C2 & Hh0 & Hsteps & L2 & E2)]; [rewrite Hno in Hrun; discriminate|].
    rewrite E2 in Hrun. destruct (fuel <? n); try discriminate. cbn [bind] in Hrun.
    destruct (csteps_uniq E pos cs (r_predicted st) k Hx0 Hcs Hu0 _ _ _ _ _ Hsteps D1 [] U1)
      as (D2 & Q2 & U2).
    destruct (csteps_one E pos cs (r_predicted st) k Hx0 Hcs Hpos0 Hplain _ _ _ _ _ Hsteps V1) as (_ & _ & ON2 & _).
    destruct U2 as (_ & _ & _ & UO2 & NO2).
    destruct C2 as (Hrep3 & Hrows3 & _).
    destruct (sort_medial_spec g R nsyms nall FIRST FOLLOW tok (clear_hint st2) cs O2 Hrep3) as
      (st4 & O4 & E4 & Hrep4 & P4 & _ & Hp4 & _).
    { intros it Hit. destruct (proj1 (UO2 it Hit)) as (i & _ & [ts Hts] & Hall).
      destruct (Hall ts Hts) as (t & _ & HM). apply (Med_rule _ _ _ _ _ _ _ _ _ _ _ _ _ _ HM). }
    rewrite E4 in Hrun. cbn [bind] in Hrun.
    destruct (rm st4) as [st5| |] eqn:E5; try discriminate. cbn [bind] in Hrun.
    assert (Hu4 : uniq_set O4 /\ one O4) by now apply (uniq_perm O2 O4 P4).
    destruct (Hrm st4 cs O4 Hrep4 Hcs) as (st5' & m & E5' & Hm & Hrep5 & _).
    { rewrite Hp4. cbn. destruct HI as [(cs0 & O0 & _ & HL0 & (_ & _ & _ & Hrw)) Hlast0 _ _].
      rewrite HLc. assert (HX : nth_error pos (length pos - 1) = Some k) by auto.
      destruct (Hrw _ _ HX) as (row & Hrow & _).
      assert (length pos - 1 < length (r_predicted st)) by (apply nth_error_Some; congruence).
      rewrite Hrows3. lia. }
    { intros it Hit. destruct (proj1 (UO2 it (Permutation_in _ (Permutation_sym P4) Hit))) as (i & Hi & _).
      rewrite HLc. apply nth_error_Some. congruence. }
    rewrite E5 in E5'. injection E5' as <-. rewrite Hleo in Hrun. cbn [bind] in Hrun.
    unfold prediction_pass in Hrun.
    assert (Hmed : exists m5, st' = set_predicted st5 m5).
    { revert Hrun. clear.
      destruct (v_last (r_medial st5)); try discriminate. cbn [bind].
      destruct (unwrap (earleme st5)); try discriminate. cbn [bind].
      match goal with |- context [idx ?a ?b] => destruct (idx a b); try discriminate end. cbn [bind].
      match goal with |- context [foldM ?f ?l ?x] => destruct (foldM f l x); try discriminate end. cbn [bind].
      match goal with |- context [upd ?a ?b ?c] => destruct (upd a b c); try discriminate end. cbn [bind].
      intros X. injection X as <-. eauto. }
    destruct Hmed as (m5 & ->).
    apply (uniq_rep (set_predicted st5 m5) (firstn m cs) O4); [exact Hrep5|].
    split; [|apply Hu4]. intros set Hin. apply in_app_iff in Hin. destruct Hin as [Hin|[<- | []]]; [|apply Hu4].
    apply Hu0. rewrite <- (firstn_skipn m cs). apply in_app_iff; auto.
  Qed.

  Theorem steps_uniq : forall st Z sd0, Inv (env_of [] sd0) Z 0 [0] st -> uniq_state st ->
    (forall s, ~ sd0 0 s) -> (forall s, Z s -> s <> root) ->
    forall locs, locs_ok nsyms nall locs -> (forall l, In l locs -> toks_ok (l_toks l)) ->
    forall fuel st', steps P g rm fuel locs st = Ret (true, st') -> uniq_state st'.
  Proof.
    intros st Z sd0 HI HU Hs0 HZ. induction locs as [|x l IH] using rev_ind; intros Hok Htk fuel st' Hrun.
    - injection Hrun as <-. auto.
    - rewrite steps_snoc in Hrun.
      assert (Hok' : locs_ok nsyms nall l) by (intros y Hy; apply Hok, in_app_iff; auto).
      assert (Htk' : forall y, In y l -> toks_ok (l_toks y)) by (intros y Hy; apply Htk, in_app_iff; auto).
      destruct (CyclicRun.steps_any P g R nsyms nall FIRST FOLLOW root Hleo wf tok rm Hrm fuel st Z sd0 HI l Hok')
        as [Hno|(n & b & st1 & sd & pos & _ & Hsd0 & HsdZ & Hr & _ & _ & Hinv)]; [rewrite Hno in Hrun; discriminate|].
      specialize (IH Hok' Htk' fuel). rewrite Hr in Hrun, IH.
      destruct (fuel <? n); [discriminate|]. cbn [bind] in Hrun. destruct b; [|discriminate].
      specialize (IH st1 eq_refl). destruct (Hinv eq_refl) as (HI1 & Hp0 & _).
      set (k := length l) in *. set (E := env_of (l ++ [x]) sd).
      pose proof (env_of_agree l [x] sd sd ltac:(reflexivity)) as Hag.
      assert (HI2 : Inv E Z k pos st1) by (eapply Inv_congr; [exact Hag|exact HI1]).
      assert (Ex : nth_error (l ++ [x]) k = Some x).
      { unfold k. rewrite nth_error_app2 by lia. now rewrite Nat.sub_diag. }
      assert (EW : eW E k = l_toks x) by (unfold E; cbn; now rewrite Ex).
      assert (Eh : ehint E (S k) = l_hint x) by (unfold E; cbn; now rewrite Ex).
      assert (Ekp : ekeep E (S k) = l_keep x) by (unfold E; cbn; now rewrite Ex).
      destruct (Hok x) as [Hx1 Hx2]. { apply in_app_iff; simpl; auto. }
      unfold steploc in Hrun. rewrite <- EW, <- Eh, <- Ekp in Hrun.
      eapply (step_uniq E Z k pos st1 HI2); eauto.
      + now rewrite Eh.
      + rewrite EW. exact Hx2.
      + rewrite EW. apply Htk. apply in_app_iff; simpl; auto.
      + split; [|intros j s X; apply HZ, (HsdZ j s X)]. intros s X. apply (Hs0 s). now apply Hsd0.
  Qed.
  End Step.

  Lemma uniq_start : forall (st : state), rep (r_medial st) [] [] -> uniq_state st.
  Proof using Type.
    intros st Hrep. apply (uniq_rep _ _ _ Hrep). split; [|intros x y []]. intros set [<- | []]. constructor.
  Qed.
End Uniq.
