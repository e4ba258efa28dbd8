(** Den: the parse trees represented by a node of the free forest. *)
From Coq Require Import List Arith.
From Verif Require Import Base Grammar Forest Spec.
Import ListNotations.

(** [den T ts]: node [T] represents the sequence of trees [ts] (a product
    represents two trees, any other node one). *)
Inductive den : fnode -> list tree -> Prop :=
| den_leaf : forall s v, den (FLeaf s v) [Leaf s v]
| den_prod : forall l r xs ys, den l xs -> den r ys -> den (FProd l r) (xs ++ ys)
| den_sum : forall s alts d T xs, In (d, T) alts -> den T xs -> den (FSum s alts) [Node d xs].

(** induction over nodes of the free forest *)
Section FnodeInd.
  Variable P : fnode -> Prop.
  Hypothesis Hleaf : forall s v, P (FLeaf s v).
  Hypothesis Hnull : forall s, P (FNull s).
  Hypothesis Hprod : forall l r, P l -> P r -> P (FProd l r).
  Hypothesis Hsum : forall s alts, Forall (fun a => P (snd a)) alts -> P (FSum s alts).
  Fixpoint fnode_ind2 (T : fnode) : P T :=
    match T with
    | FLeaf s v => Hleaf s v
    | FNull s => Hnull s
    | FProd l r => Hprod l r (fnode_ind2 l) (fnode_ind2 r)
    | FSum s alts => Hsum s alts
        ((fix go l : Forall (fun a => P (snd a)) l :=
            match l with
            | [] => Forall_nil _
            | a :: l => Forall_cons a (fnode_ind2 (snd a)) (go l)
            end) alts)
    end.
End FnodeInd.

(** ** The trees a free node represents, with repetitions *)
Fixpoint trees (T : fnode) : list (list tree) :=
  match T with
  | FLeaf s v => [[Leaf s v]]
  | FNull _ => []
  | FProd l r => flat_map (fun xs => map (fun ys => xs ++ ys) (trees r)) (trees l)
  | FSum _ alts => flat_map (fun a => map (fun xs => [Node (fst a) xs]) (trees (snd a))) alts
  end.

Lemma trees_den : forall T ts, In ts (trees T) <-> den T ts.
Proof.
  induction T as [s v|s|l r IHl IHr|s alts IH] using fnode_ind2; intros ts; cbn [trees].
  - split; [intros [<- | []]; constructor|]. intros H. inversion H. now left.
  - split; [intros []|]. intros H. inversion H.
  - rewrite in_flat_map. split.
    + intros (xs & Hx & H). apply in_map_iff in H. destruct H as (ys & <- & Hy). constructor; [now apply IHl|now apply IHr].
    + intros H. inversion H; subst. exists xs. split; [now apply IHl|]. apply in_map_iff. exists ys. split; [auto|]. now apply IHr.
  - rewrite in_flat_map. rewrite Forall_forall in IH. split.
    + intros ([d T] & Ha & H). apply in_map_iff in H. destruct H as (xs & <- & Hx). cbn [fst snd] in *.
      eapply den_sum; [exact Ha|]. now apply (IH _ Ha).
    + intros H. inversion H; subst. exists (d, T). split; [auto|]. apply in_map_iff. exists xs. split; [auto|].
      now apply (IH (d, T) H2).
Qed.
