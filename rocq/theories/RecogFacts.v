(** RecogFacts: recognition results for the kinds of input in ClientSpec.v. *)
From Coq Require Import List Arith Bool Lia Relations.
From Verif Require Import Base BaseProofs Vec2d Item Grammar DefaultGrammar Forest ForestSpec Recognizer Drive ClientSpec
  Spec SpecFacts Chart ChartFacts ChartSpec CfgSpec Tables TablesProofs Den Core1 Core2 Core3 Core4 Core5 Core6
  Recog Sim RecogAny Parse.
Import ListNotations.
Local Open Scope res_scope.

(** ** Environments of particular inputs *)
Lemma hinted_length : forall use xs j, length (hinted use j xs) = length xs.
Proof. induction xs; simpl; auto. Qed.

Lemma hinted_nth : forall use xs j k, nth_error (hinted use j xs) k =
  match nth_error xs k with
  | None => None
  | Some x => Some (mkLoc (if use (j + k) then option_map fst (nth_error xs (S k)) else None) [x] keep_all)
  end.
Proof.
  induction xs as [|x xs IH]; intros j k; [destruct k; reflexivity|].
  destruct k as [|k]; cbn [hinted nth_error].
  - rewrite Nat.add_0_r. destruct xs; reflexivity.
  - rewrite IH. replace (S j + k) with (j + S k) by lia. reflexivity.
Qed.

Lemma reads_single : forall W xs i, (forall k x, nth_error xs k = Some x -> W (i + k) = [x]) ->
  forall ys j, reads W i ys j -> j = i + length xs -> ys = xs.
Proof.
  intros W xs. induction xs as [|x xs IH]; intros i HW ys j H Ej.
  - destruct H; [auto|]. apply reads_length in H0. simpl in Ej. lia.
  - destruct H as [i|i y ys j Hin H]; [simpl in Ej; lia|].
    rewrite <- (Nat.add_0_r i) in Hin. rewrite (HW 0 x eq_refl) in Hin. destruct Hin as [->|[]].
    f_equal. apply (IH (S i) ltac:(intros k z Hk; replace (S i + k) with (i + S k) by lia; now apply HW) ys j H).
    simpl in Ej. lia.
Qed.

Lemma reads_self : forall W xs i, (forall k x, nth_error xs k = Some x -> In x (W (i + k))) -> reads W i xs (i + length xs).
Proof.
  intros W xs. induction xs as [|x xs IH]; intros i HW; simpl.
  - rewrite Nat.add_0_r. constructor.
  - constructor; [rewrite <- (Nat.add_0_r i); now apply HW|].
    replace (i + S (length xs)) with (S i + length xs) by lia. apply IH.
    intros k z Hk. replace (S i + k) with (i + S k) by lia. now apply HW.
Qed.

Lemma reads_choice : forall Ws W i, (forall k ts, nth_error Ws k = Some ts -> W (i + k) = ts) ->
  forall ys, reads W i ys (i + length Ws) <-> choice Ws ys.
Proof.
  induction Ws as [|ts Ws IH]; intros W i HW ys.
  - simpl. rewrite Nat.add_0_r. split; intros H.
    + inversion H; subst; [constructor|]. apply reads_length in H1. lia.
    + inversion H; subst. constructor.
  - simpl. replace (i + S (length Ws)) with (S i + length Ws) by lia.
    assert (HW' : forall k us, nth_error Ws k = Some us -> W (S i + k) = us).
    { intros k us Hk. replace (S i + k) with (i + S k) by lia. now apply HW. }
    assert (H0 : W i = ts) by (rewrite <- (Nat.add_0_r i); now apply HW).
    split; intros H.
    + inversion H as [|? y zs ? Hin Hr]; subst; [lia|]. constructor; [congruence|]. now apply (IH W (S i)).
    + inversion H as [|? y ? zs Hin Hr]; subst. constructor; [congruence|]. now apply (IH W (S i)).
Qed.

Section Facts.
  Variable P : perf.
  Variables (c : pcfg) (nsyms : nat) (w : wrapped_root) (d0 : nat) (g0 : sym).
  Hypothesis HP : processed c nsyms w d0 g0.
  Notation R := (c_rules c).
  Notation nall := (c_num_syms c).
  Notation root := (w_root w).

  Lemma cok_all : forall keep i s t, (forall j s, keep j s = true) -> parse_tree R s t -> constituents_ok R keep i t.
  Proof. intros keep i s t H Ht. eapply (proj1 (constituents_all R keep H)); eauto. Qed.

  (** *** single tokens with hints *)
  Lemma hinted_W : forall use xs sd k x, nth_error xs k = Some x -> eW (env_of (hinted use 0 xs) sd) (0 + k) = [x].
  Proof. intros use xs sd k x Hk. cbn. rewrite hinted_nth, Hk. reflexivity. Qed.

  Lemma hinted_keep : forall use xs sd j s, ekeep (env_of (hinted use 0 xs) sd) j s = true.
  Proof. intros use xs sd [|j] s; [reflexivity|]. cbn. rewrite hinted_nth. destruct (nth_error xs j); reflexivity. Qed.

  Lemma hinted_hint : forall use xs sd j s, ehint (env_of (hinted use 0 xs) sd) j = Some s ->
    exists v, nth_error xs j = Some (s, v).
  Proof.
    intros use xs sd [|j] s H; [discriminate|]. cbn in H. rewrite hinted_nth in H.
    destruct (nth_error xs j); [|discriminate]. cbn [l_hint] in H. destruct (use (0 + j)); [|discriminate].
    destruct (nth_error xs (S j)) as [[a b]|] eqn:E; [|discriminate]. injection H as <-. eauto.
  Qed.

  Lemma hinted_ok : forall use xs, (forall s v, In (s, v) xs -> s < nsyms) -> locs_ok nsyms nall (hinted use 0 xs).
  Proof.
    intros use xs H l Hl. apply In_nth_error in Hl. destruct Hl as [k Hk]. rewrite hinted_nth in Hk. unfold sym in *.
    destruct (nth_error xs k) as [x|] eqn:Ex; [|discriminate]. apply (f_equal (fun o => match o with Some l => l | None => l end)) in Hk. cbv beta iota in Hk. rewrite <- Hk. cbn [l_hint l_toks]. split.
    - destruct (use (0 + k)); [|exact I].
      destruct (nth_error xs (S k)) as [[s v]|] eqn:E; [|exact I]. cbn. apply (H s v). eapply nth_error_In. exact E.
    - intros s v [->|[]]. pose proof (pr_le _ _ _ _ _ HP).
      assert (s < nsyms); [|lia]. apply (H s v). eapply nth_error_In; eauto.
  Qed.

  Lemma accepted_hinted : forall use v0 xs,
    (exists t, accepted c g0 (hinted use 0 ((w_sof w, v0) :: xs)) t) <-> sentence c w g0 (map fst xs).
  Proof.
    intros use v0 xs. set (ys := (w_sof w, v0) :: xs). split.
    - intros (t & Hpt & Hrd & _). rewrite hinted_length in Hrd.
      pose proof (reads_single _ ys 0 (hinted_W use ys no_seed) _ _ Hrd eq_refl) as Hy.
      apply (g0_inv c nsyms w d0 g0 HP). change (w_sof w :: map fst xs) with (map fst ys). rewrite <- Hy.
      now apply tree_derives.
    - intros Hs. apply sentence_g0 in Hs. change (w_sof w :: map fst xs) with (map fst ys) in Hs.
      destruct (proj1 (derives_tree R) _ _ Hs ys eq_refl) as (t & Ht & Hy).
      exists t. split; [auto|]. split.
      + rewrite hinted_length, Hy. apply (reads_self _ ys 0). intros k x Hk. rewrite hinted_W with (x := x); [simpl; auto|auto].
      + eapply cok_all; eauto. intros. apply hinted_keep.
  Qed.

  Lemma truthful_hinted : forall use v0 xs t, (forall s v, In (s, v) xs -> s < nsyms /\ terminal R s) ->
    accepted c g0 (hinted use 0 ((w_sof w, v0) :: xs)) t -> truthful c nsyms w (hinted use 0 ((w_sof w, v0) :: xs)) t.
  Proof.
    intros use v0 xs t Hx (Hpt & Hrd & _) j s Hh. set (ys := (w_sof w, v0) :: xs) in *.
    rewrite hinted_length in Hrd.
    pose proof (reads_single _ ys 0 (hinted_W use ys no_seed) _ _ Hrd eq_refl) as Hy.
    apply hinted_hint in Hh. destruct Hh as (v & Hn).
    assert (X : s < nsyms /\ terminal R s).
    { apply nth_error_In in Hn. destruct Hn as [E|Hn]; [injection E as <- <-; destruct HP; auto|]. eapply Hx; eauto. }
    split; [apply X|]. split; [apply X|]. rewrite Hy, nth_error_app1.
    - rewrite nth_error_map, Hn. reflexivity.
    - rewrite map_length. apply nth_error_Some. unfold sym in *. congruence.
  Qed.
End Facts.

Section Any.
  Context {F N : Type}.
  Variable fo : forest_ops F N.
  Variable ok : phase -> F -> Prop.
  Hypothesis HU : usable fo ok.
  Variable P : perf.
  Variables (c : pcfg) (nsyms : nat) (w : wrapped_root) (d0 : nat) (g0 : sym).
  Variable g : dgrammar.
  Hypothesis Hleo : LEO P = false.
  Hypothesis HB : built c nsyms w d0 g0 g.
  Notation R := (c_rules c).
  Notation nall := (c_num_syms c).
  Notation root := (w_root w).
  Notation start_state := (start_state ok P c nsyms w g).
  Notation user xs := (forall (s : sym) (v : nat), In (s, v) xs -> user_terminal c nsyms w s).

  Lemma HP : processed c nsyms w d0 g0.
  Proof. apply HB. Qed.

  Lemma user_all : forall xs v0, user xs -> forall s v, In (s, v) ((w_sof w, v0) :: xs) -> s < nsyms /\ terminal R s.
  Proof.
    intros xs v0 H s v [E|Hin].
    - injection E as <- _. destruct HP. auto.
    - destruct (H s v Hin) as (A & B & _). auto.
  Qed.

  (** *** verdicts *)
  Lemma verdict_hinted : forall Z st use v0 xs, start_state Z st -> (forall s, Z s -> s <> root) -> user xs ->
    exists n v, (forall fuel, verdict fo P g fuel (hinted use 0 ((w_sof w, v0) :: xs)) st = if fuel <? n then NoFuel else Ret v) /\
      (v = true <-> sentence c w g0 (map fst xs)).
  Proof.
    intros Z st use v0 xs Hst HZ Hx. pose proof HP as HP.
    destruct (verdict_spec fo ok HU P c nsyms w d0 g0 g Hleo HB Z st (hinted use 0 ((w_sof w, v0) :: xs)) Hst HZ)
      as (n & v & Hv & H1 & H2).
    - apply hinted_ok with (1 := HP). intros s v Hs. eapply user_all; eauto.
    - discriminate.
    - exists n, v. split; [exact Hv|]. split.
      + intros E. apply (accepted_hinted c nsyms w d0 g0 HP use v0). auto.
      + intros Hs. apply (accepted_hinted c nsyms w d0 g0 HP use v0) in Hs. destruct Hs as (t & Ht).
        apply (H2 t Ht). eapply truthful_hinted; eauto. intros s v' X. destruct (Hx s v' X) as (A & B & _). auto.
  Qed.

  (** *** several tokens, rejected groups, no hints *)
  Definition sofloc : location := mkLoc None [(w_sof w, 0)] keep_all.

  Lemma verdict_filtered : forall Z st (xs : list (list (sym * nat) * (sym -> bool))), start_state Z st -> (forall s, Z s -> s <> root) ->
    (forall x s v, In x xs -> In (s, v) (fst x) -> s < nall) ->
    let keep j s := match j with S (S j') => match nth_error xs j' with Some x => snd x s | None => true end | _ => true end in
    exists n v, (forall fuel, verdict fo P g fuel (sofloc :: map filtered xs) st = if fuel <? n then NoFuel else Ret v) /\
      (v = true <-> exists t, parse_tree R g0 t /\
         choice ([(w_sof w, 0)] :: map fst xs) (yield t) /\ constituents_ok R keep 0 t).
  Proof.
    intros Z st xs Hst HZ Hx keep. set (locs := sofloc :: map filtered xs). pose proof HP as HP.
    assert (Hh : forall j, ehint (env_of locs no_seed) j = None).
    { intros [|[|j]]; [reflexivity|reflexivity|]. cbn. rewrite nth_error_map. destruct (nth_error xs j); reflexivity. }
    assert (Hk : forall j s, ekeep (env_of locs no_seed) j s = keep j s).
    { intros [|[|j]] s; [reflexivity|reflexivity|]. cbn. rewrite nth_error_map. destruct (nth_error xs j); reflexivity. }
    assert (HW : forall k ts, nth_error ([(w_sof w, 0)] :: map fst xs) k = Some ts -> eW (env_of locs no_seed) (0 + k) = ts).
    { intros [|k] ts H; cbn in *; [congruence|]. rewrite nth_error_map in *. destruct (nth_error xs k); cbn in *; congruence. }
    destruct (verdict_spec fo ok HU P c nsyms w d0 g0 g Hleo HB Z st locs Hst HZ) as (n & v & Hv & H1 & H2).
    - intros l [<-|Hl]; cbn.
      + split; [exact I|]. intros s v [E|[]]. injection E as <- _. destruct HP. lia.
      + apply in_map_iff in Hl. destruct Hl as (x & <- & Hin). cbn. split; [exact I|]. intros s v. now apply Hx.
    - discriminate.
    - exists n, v. split; [exact Hv|].
      assert (Hlen : length locs = 0 + length ([(w_sof w, 0)] :: map fst xs)).
      { cbn. now rewrite !map_length. }
      split.
      + intros E. destruct (H1 E) as (t & Hpt & Hrd & Hc). exists t. split; [auto|]. split.
        * rewrite Hlen in Hrd. now apply (reads_choice _ _ 0 HW).
        * eapply constituents_ext; [|exact Hc]. intros; apply Hk.
      + intros (t & Hpt & Hch & Hc). apply (H2 t).
        * split; [auto|]. split.
          -- rewrite Hlen. now apply (reads_choice _ _ 0 HW).
          -- eapply constituents_ext; [|exact Hc]. intros. symmetry. apply Hk.
        * intros j s X. rewrite Hh in X. discriminate.
  Qed.

  (** *** several tokens, no hints: intermediate answers *)
  Definition offered (Ws : list (list (sym * nat))) : list location := sofloc :: map overlapping Ws.

  Lemma choice_keys : forall Ws ys, choice Ws ys -> (forall ts s v, In ts Ws -> In (s, v) ts -> user_terminal c nsyms w s) ->
    ~ In (w_eof w) (map fst ys).
  Proof.
    intros Ws ys H Hx Hin. induction H as [|ts y Ws ys Hy H IH]; [destruct Hin|].
    cbn in Hin. destruct Hin as [E|Hin].
    - destruct y as [s v]. cbn in E. destruct (Hx ts s v (or_introl eq_refl) Hy) as (_ & _ & _ & X). congruence.
    - apply IH; auto. intros ts' s v A B. apply (Hx ts' s v); simpl; auto.
  Qed.

  Lemma offered_W : forall Ws k ts, nth_error ([(w_sof w, 0)] :: Ws) k = Some ts ->
    eW (env_of (offered Ws) no_seed) (0 + k) = ts.
  Proof.
    intros Ws [|k] ts H; cbn in *; [congruence|]. rewrite nth_error_map, H. reflexivity.
  Qed.

  Lemma offered_hint : forall Ws j, ehint (env_of (offered Ws) no_seed) j = None.
  Proof.
    intros Ws [|[|j]]; [reflexivity|reflexivity|]. cbn. rewrite nth_error_map. destruct (nth_error Ws j); reflexivity.
  Qed.

  Lemma offered_len : forall Ws, length (offered Ws) = 0 + length ([(w_sof w, 0)] :: Ws).
  Proof. intros. cbn. now rewrite map_length. Qed.

  Lemma offered_ok : forall Ws, (forall ts s v, In ts Ws -> In (s, v) ts -> s < nall) -> locs_ok nsyms nall (offered Ws).
  Proof.
    intros Ws Hx l [<-|Hl]; cbn.
    - split; [exact I|]. intros s v [E|[]]. injection E as <- _. destruct HP. lia.
    - apply in_map_iff in Hl. destruct Hl as (x & <- & Hin). cbn. split; [exact I|]. intros s v. now apply Hx.
  Qed.

  Lemma user_nall : forall s, user_terminal c nsyms w s -> s < nall.
  Proof. intros s (A & _). pose proof (pr_le _ _ _ _ _ HP). lia. Qed.

  Lemma answer_offered : forall st Ws, productive R -> start_state (fun _ => False) st ->
    (forall ts s v, In ts Ws -> In (s, v) ts -> user_terminal c nsyms w s) ->
    exists n b, (forall fuel, fuel < n -> feed_all fo P g fuel (offered Ws) st = NoFuel) /\
      (forall fuel, n <= fuel -> exists st', feed_all fo P g fuel (offered Ws) st = Ret (b, st')) /\
      (b = true <-> exists ys, choice Ws ys /\ viable c nsyms w g0 (map fst ys)).
  Proof.
    intros st Ws Hprod Hst Hx. pose proof HP as HP.
    destruct (answer_spec fo ok HU P c nsyms w d0 g0 g Hleo HB _ st (offered Ws) Hst) as (n & b & H1 & H2 & H3 & H4).
    - intros s [].
    - apply offered_ok. intros ts s v A B. apply user_nall. eapply Hx; eauto.
    - discriminate.
    - exists n, b. split; [auto|]. split; [auto|]. split.
      + intros E. destruct (H3 ltac:(auto) E) as (ys & v & Hrd & Hd). rewrite offered_len in Hrd.
        apply (reads_choice _ _ 0 (offered_W Ws)) in Hrd.
        inversion Hrd as [|? y ? zs Hin Hr]; subst. destruct Hin as [<-|[]].
        exists zs. split; [auto|]. apply (viable_root c nsyms w d0 g0 HP).
        * eapply choice_keys; eauto.
        * eapply viable_close; eauto.
      + intros (ys & Hch & Hv). apply (viable_root c nsyms w d0 g0 HP) in Hv; [|eapply choice_keys; eauto].
        destruct Hv as (v & _ & Hd). apply (H4 ((w_sof w, 0) :: ys) v).
        * intros l s [<-|Hl]; [reflexivity|]. apply in_map_iff in Hl. destruct Hl as (x & <- & _). reflexivity.
        * rewrite offered_len. apply (reads_choice _ _ 0 (offered_W Ws)). constructor; [simpl; auto|auto].
        * exact Hd.
        * intros s v' [E|[]]. injection E as <- _. now apply (sof_not_root c nsyms w d0 g0).
        * intros j s X. rewrite offered_hint in X. discriminate.
  Qed.

  Lemma verdict_offered : forall Z st Ws, start_state Z st -> (forall s, Z s -> s <> root) ->
    (forall ts s v, In ts Ws -> In (s, v) ts -> s < nall) ->
    exists n v, (forall fuel, verdict fo P g fuel (offered Ws) st = if fuel <? n then NoFuel else Ret v) /\
      (v = true <-> exists ys, choice Ws ys /\ sentence c w g0 (map fst ys)).
  Proof.
    intros Z st Ws Hst HZ Hx. pose proof HP as HP.
    destruct (verdict_filtered Z st (map (fun ts => (ts, keep_all)) Ws) Hst HZ) as (n & v & Hv & Hi).
    { intros x s u A B. apply in_map_iff in A. destruct A as (ts & <- & A). eapply Hx; eauto. }
    exists n, v. split.
    - intros fuel. rewrite <- Hv. unfold offered. rewrite map_map. reflexivity.
    - rewrite Hi. clear Hi Hv. rewrite map_map. cbn [fst]. rewrite map_id. split.
      + intros (t & Hpt & Hch & _). inversion Hch as [|? y ? zs Hin Hr E Ey]; subst. destruct Hin as [<-|[]].
        exists zs. split; [auto|]. apply (g0_inv c nsyms w d0 g0 HP).
        apply tree_derives in Hpt. now rewrite <- Ey in Hpt.
      + intros (ys & Hch & Hs). apply sentence_g0 in Hs.
        destruct (proj1 (derives_tree R) _ _ Hs ((w_sof w, 0) :: ys) eq_refl) as (t & Ht & Hy).
        exists t. split; [auto|]. split.
        * rewrite Hy. constructor; [simpl; auto|auto].
        * eapply (cok_all c); eauto. intros [|[|j]] s; auto. rewrite nth_error_map. destruct (nth_error Ws j); reflexivity.
  Qed.

  (** *** the answers while reading with hints *)
  Lemma firstn_nth : forall A (l : list A) n k, k < n -> nth_error (firstn n l) k = nth_error l k.
  Proof. induction l as [|a l IH]; intros [|n] [|k] H; simpl; try lia; auto. apply IH. lia. Qed.

  Lemma hinted_prefix_true : forall st use v0 xs k fuel st', productive R -> start_state (fun _ => False) st -> user xs ->
    feed_all fo P g fuel (firstn (S k) (hinted use 0 ((w_sof w, v0) :: xs))) st = Ret (true, st') -> k <= length xs ->
    viable c nsyms w g0 (map fst (firstn k xs)).
  Proof.
    intros st use v0 xs k fuel st' Hprod Hst Hx Hf Hk. pose proof HP as HP.
    set (ys := (w_sof w, v0) :: xs) in *. set (locs := firstn (S k) (hinted use 0 ys)) in *.
    assert (Hlen : length locs = S k).
    { unfold locs. rewrite firstn_length, hinted_length. unfold ys. simpl. lia. }
    destruct (answer_spec fo ok HU P c nsyms w d0 g0 g Hleo HB _ st locs Hst) as (n & b & H1 & H2 & H3 & H4).
    - intros s [].
    - assert (X : locs_ok nsyms nall (hinted use 0 ys)).
      { apply hinted_ok with (1 := HP). intros s v Hs. eapply user_all; eauto. }
      intros l Hl. apply X. apply In_nth_error in Hl. destruct Hl as [m Hm].
      unfold locs in Hm. rewrite firstn_nth in Hm; [eapply nth_error_In; eauto|].
      rewrite <- Hlen. apply nth_error_Some. unfold locs in *. congruence.
    - intros E. rewrite E in Hlen. discriminate.
    - destruct (Nat.lt_ge_cases fuel n) as [Hl|Hl]; [rewrite (H1 fuel Hl) in Hf; discriminate|].
      destruct (H2 fuel Hl) as (st2 & E2). rewrite Hf in E2. injection E2 as <- <-.
      destruct (H3 ltac:(auto) eq_refl) as (zs & v & Hrd & Hd). rewrite Hlen in Hrd.
      assert (Hz : zs = firstn (S k) ys).
      { apply (reads_single (eW (env_of locs no_seed)) (firstn (S k) ys) 0) with (j := S k); auto.
        - intros m x Hm. cbn [env_of eW]. unfold locs. cbn [Nat.add].
          assert (Hmk : m < S k).
          { assert (Y : m < length (firstn (S k) ys)) by (apply nth_error_Some; congruence). rewrite firstn_length in Y. lia. }
          rewrite firstn_nth in * by auto. rewrite hinted_nth, Hm. reflexivity.
        - rewrite firstn_length. unfold ys. simpl. lia. }
      apply (viable_root c nsyms w d0 g0 HP).
      + intros Hin. apply in_map_iff in Hin. destruct Hin as ([s u] & E & Hin).
        destruct (Hx s u) as (_ & _ & _ & X); [|cbn in E; congruence].
        rewrite <- (firstn_skipn k xs). apply in_app_iff. auto.
      + rewrite Hz in Hd. cbn in Hd. eapply viable_close; [auto|]. cbn. exact Hd.
  Qed.

  Lemma hinted_prefix_false : forall Z st use v0 xs k fuel st', start_state Z st -> (forall s, Z s -> s <> root) -> user xs ->
    feed_all fo P g fuel (firstn (S k) (hinted use 0 ((w_sof w, v0) :: xs))) st = Ret (false, st') -> k <= length xs ->
    ~ viable c nsyms w g0 (map fst (firstn (S k) xs)).
  Proof.
    intros Z st use v0 xs k fuel st' Hst HZ Hx Hf Hk Hv. pose proof HP as HP.
    set (ys := (w_sof w, v0) :: xs) in *. set (locs := firstn (S k) (hinted use 0 ys)) in *.
    assert (Hlen : length locs = S k).
    { unfold locs. rewrite firstn_length, hinted_length. unfold ys. simpl. lia. }
    apply (viable_root c nsyms w d0 g0 HP) in Hv.
    2:{ intros Hin. apply in_map_iff in Hin. destruct Hin as ([s u] & E & Hin).
        destruct (Hx s u) as (_ & _ & _ & X); [|cbn in E; congruence].
        rewrite <- (firstn_skipn (S k) xs). apply in_app_iff. auto. }
    destruct Hv as (v & _ & Hd).
    assert (Hnth : forall m x, nth_error locs m = Some x -> nth_error (hinted use 0 ys) m = Some x).
    { intros m x Hm. unfold locs in Hm. rewrite firstn_nth in Hm; [auto|].
      rewrite <- Hlen. apply nth_error_Some. unfold locs in *. congruence. }
    assert (Hnth' : forall m, m < S k -> nth_error locs m = nth_error (hinted use 0 ys) m).
    { intros m Hm. unfold locs. now rewrite firstn_nth. }
    destruct (answer_spec fo ok HU P c nsyms w d0 g0 g Hleo HB _ st locs Hst HZ) as (n & b & H1 & H2 & H3 & H4).
    - assert (X : locs_ok nsyms nall (hinted use 0 ys)).
      { apply hinted_ok with (1 := HP). intros s u Hs. eapply user_all; eauto. }
      intros l Hl. apply X. apply In_nth_error in Hl. destruct Hl as [m Hm]. apply Hnth in Hm. eapply nth_error_In; eauto.
    - intros E. rewrite E in Hlen. discriminate.
    - destruct (Nat.lt_ge_cases fuel n) as [Hl|Hl]; [rewrite (H1 fuel Hl) in Hf; discriminate|].
      destruct (H2 fuel Hl) as (st2 & E2). rewrite Hf in E2. injection E2 as <- _.
      assert (X : false = true); [|discriminate].
      assert (Hdecomp : exists rest, map fst (firstn (S (S k)) ys) ++ v = map fst (firstn (S k) ys) ++ rest).
      { exists (map fst (firstn 1 (skipn (S k) ys)) ++ v). rewrite app_assoc, <- map_app. do 2 f_equal.
        replace (S (S k)) with (S k + 1) by lia.
        rewrite <- (firstn_skipn (S k) ys) at 1. rewrite firstn_app, firstn_firstn.
        rewrite Nat.min_r by lia. f_equal. f_equal.
        rewrite firstn_length. unfold ys. cbn [length]. lia. }
      destruct Hdecomp as (rest & Hdec).
      apply (H4 (firstn (S k) ys) rest).
      + intros l s Hl'. apply In_nth_error in Hl'. destruct Hl' as [m Hm]. apply Hnth in Hm. rewrite hinted_nth in Hm.
        unfold sym in *. destruct (nth_error ys m); [|discriminate]. injection Hm as <-. reflexivity.
      + rewrite Hlen. assert (Hl1 : length (firstn (S k) ys) = S k).
        { rewrite firstn_length. unfold ys. cbn [length]. lia. }
        assert (Hr : reads (eW (env_of locs no_seed)) 0 (firstn (S k) ys) (0 + length (firstn (S k) ys))).
        { apply reads_self. intros m x Hm.
          assert (Hmk : m < S k) by (rewrite <- Hl1; apply nth_error_Some; congruence).
          rewrite firstn_nth in Hm by auto. cbn [env_of eW Nat.add]. rewrite Hnth', hinted_nth, Hm by auto. simpl; auto. }
        now rewrite Hl1 in Hr.
      + rewrite <- Hdec. exact Hd.
      + intros s v' Hin. assert (E : locs = mkLoc (l_hint (hd (overlapping []) (hinted use 0 ys))) [(w_sof w, v0)] keep_all :: firstn k (hinted use 1 xs)).
        { reflexivity. }
        rewrite E in Hin. cbn in Hin. destruct Hin as [X|[]]. injection X as <- _. now apply (sof_not_root c nsyms w d0 g0).
      + rewrite <- Hdec. intros [|j] s Hh; [discriminate|].
        assert (Hj : j < S k).
        { rewrite <- Hlen. cbn [env_of ehint] in Hh. destruct (nth_error locs j) eqn:E; [|discriminate]. apply nth_error_Some. congruence. }
        cbn [env_of ehint] in Hh. rewrite Hnth' in Hh by auto.
        assert (Hh2 : ehint (env_of (hinted use 0 ys) no_seed) (S j) = Some s) by exact Hh.
        apply hinted_hint in Hh2. destruct Hh2 as (u & Hn).
        assert (X : s < nsyms /\ terminal R s) by (eapply (user_all xs v0 Hx); eapply nth_error_In; exact Hn).
        split; [apply X|]. split; [apply X|].
        rewrite nth_error_app1.
        * rewrite nth_error_map, firstn_nth by lia. unfold sym in *. rewrite Hn. reflexivity.
        * rewrite map_length, firstn_length.
          assert (S j < length ys) by (apply nth_error_Some; unfold sym in *; congruence). lia.
  Qed.
End Any.
