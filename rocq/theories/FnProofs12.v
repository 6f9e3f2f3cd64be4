(** * Prototypes, private variables, [new] *)
Require Import ZArith List Bool Lia.
Import ListNotations.
Require Import Verif.FnModel Verif.FnSpec Verif.FnSpec2 Verif.FnSpec3 Verif.FnProofs Verif.FnProofs2 Verif.FnProofs3 Verif.FnProofs4 Verif.FnProofs5 Verif.FnProofs6 Verif.FnProofs7 Verif.FnProofs8 Verif.FnProofs9 Verif.FnProofs10 Verif.FnProofs11.
Local Open Scope nat_scope.

Section Protos.
Context {PS : psys}.
Notation V := (value (prim PS)).
Notation vundef := (VPrim (undef PS)).
Notation mem := (@mem PS).
Notation expr := (@expr PS).
Notation exprs := (@exprs PS).
Notation stmt := (@stmt PS).
Notation fundef := (@fundef PS).
Notation ctx := (@ctx PS).

(** ** Prototype chains *)
Lemma getobj_at (m : mem) a : getobj m a = match obj_at m a with Some o => o | None => mkobj [] None None end.
Proof. now rewrite obj_at_get. Qed.
Lemma fn_at (m : mem) a f sc : fn (getobj m a) = Some (f, sc) <-> closure_at m a f sc.
Proof.
  rewrite getobj_at. unfold closure_at. split.
  - destruct (obj_at m a) as [o|]; [eauto|discriminate].
  - intros (o & -> & H). exact H.
Qed.
(* each prototype has a lower rank *)
Definition rank (a : nat) : nat := if a =? 0 then 2 else if a =? 1 then 1 else S a.
Lemma proto_rank (m : mem) a p : sane m -> proto (getobj m a) = Some p -> rank p < rank a.
Proof.
  intros SN H. rewrite getobj_at in H. destruct (obj_at m a) as [o|] eqn:E; [|discriminate].
  pose proof (sn_proto _ SN _ _ _ E H) as L.
  destruct L as [L|[-> ->]]; [|cbn; lia].
  assert (Ha1 : a <> 1) by (intros ->; rewrite (sn_one _ SN _ E) in H; discriminate).
  unfold rank. destruct (Nat.eqb_spec a 0); [lia|]. destruct (Nat.eqb_spec a 1); [lia|].
  destruct (Nat.eqb_spec p 0); [lia|]. destruct (Nat.eqb_spec p 1); lia.
Qed.
Lemma inherits_rank (m : mem) a b : sane m -> inherits m a b -> rank b < rank a.
Proof.
  intros SN. induction 1 as [a p H|a p q H _ IH]; [now apply proto_rank with m|].
  pose proof (proto_rank m a p SN H). lia.
Qed.
Lemma rank_bound (m : mem) a : sane m -> rank a <= S (length (objs m)) \/ proto (getobj m a) = None.
Proof.
  intros SN. pose proof (sn_base _ SN) as B.
  destruct (Nat.lt_ge_cases a (length (objs m))) as [H|H].
  - left. unfold rank. destruct (a =? 0), (a =? 1); lia.
  - right. unfold getobj. now rewrite nth_overflow.
Qed.
Lemma chain_more (m : mem) n j a : sane m -> rank a <= n -> chain (n + j) m a = chain n m a.
Proof.
  intros SN. revert a; induction n as [|n IH]; intros a H.
  - exfalso. unfold rank in H. destruct (a =? 0), (a =? 1); lia.
  - cbn [Nat.add chain]. f_equal. destruct (obj_at m a) as [o|] eqn:E; [|reflexivity].
    destruct (proto o) as [p|] eqn:EP; [|reflexivity]. apply IH.
    assert (Hp : proto (getobj m a) = Some p) by now rewrite getobj_at, E.
    pose proof (proto_rank _ _ _ SN Hp). lia.
Qed.
Lemma chain_end (m : mem) n a : proto (getobj m a) = None -> 1 <= n -> chain n m a = [a].
Proof.
  intros H Hn. destruct n; [lia|]. cbn [chain]. rewrite getobj_at in H.
  destruct (obj_at m a) as [o|]; [rewrite H|]; reflexivity.
Qed.
Lemma chain_enough (m : mem) n k a : sane m -> S (length (objs m)) <= n -> S (length (objs m)) <= k -> chain n m a = chain k m a.
Proof.
  intros SN Hn Hk. destruct (rank_bound m a SN) as [H|H].
  - transitivity (chain (S (length (objs m))) m a).
    + replace n with (S (length (objs m)) + (n - S (length (objs m)))) by lia. now apply chain_more.
    + symmetry. replace k with (S (length (objs m)) + (k - S (length (objs m)))) by lia. now apply chain_more.
  - rewrite !chain_end by (assumption || lia). reflexivity.
Qed.
Lemma lookup_enough (m : mem) n a k : sane m -> length (objs m) <= n -> lookup n m a k = get_prop m a k.
Proof.
  intros SN Hn. unfold get_prop. rewrite !lookup_chain. f_equal. apply chain_enough; [exact SN|lia|lia].
Qed.

Lemma proto_old (m m' : mem) a : later m m' -> a < length (objs m) -> proto (getobj m' a) = proto (getobj m a).
Proof.
  intros L H. rewrite !getobj_at. destruct (obj_at m a) as [o|] eqn:E.
  - destruct (la_old _ _ L _ _ E) as (o' & -> & Hp & _). exact Hp.
  - apply nth_error_None in E. lia.
Qed.
Lemma proto_lt (m : mem) a p : sane m -> proto (getobj m a) = Some p -> p < length (objs m).
Proof.
  intros SN H. pose proof H as H'. rewrite getobj_at in H. destruct (obj_at m a) as [o|] eqn:E; [|discriminate].
  pose proof (obj_at_lt _ _ _ E). pose proof (sn_base _ SN). destruct (sn_proto _ SN _ _ _ E H); lia.
Qed.
Lemma chain_old (m m' : mem) n a : sane m -> later m m' -> a < length (objs m) -> chain n m' a = chain n m a.
Proof.
  intros SN L. revert a; induction n as [|n IH]; intros a H; [reflexivity|]. cbn [chain]. f_equal.
  pose proof (proto_old _ _ _ L H) as HP. rewrite !getobj_at in HP.
  destruct (obj_at m a) as [o|] eqn:E; [|apply nth_error_None in E; lia].
  destruct (la_old _ _ L _ _ E) as (o' & E' & Hp & _). rewrite E', Hp.
  destruct (proto o) as [p|] eqn:EP; [|reflexivity]. apply IH.
  eapply (proto_lt m a); [exact SN|]. now rewrite getobj_at, E.
Qed.
Lemma inherits_chain (m : mem) n a b : In b (tl (chain n m a)) -> inherits m a b.
Proof.
  revert a; induction n as [|n IH]; intros a; cbn [chain tl]; [intros []|].
  intros H. assert (HP : exists p, proto (getobj m a) = Some p /\ In b (chain n m p)).
  { rewrite getobj_at. destruct (obj_at m a) as [o|]; [|destruct H]. destruct (proto o) as [p|]; [|destruct H]. eauto. }
  destruct HP as (p & HP & HI). destruct n as [|n']; [destruct HI|].
  destruct (Nat.eq_dec b p) as [->|Hn]; [now apply inh_one|].
  apply inh_more with p; [exact HP|]. apply IH. cbn [chain tl] in *. destruct HI as [HI|HI]; [congruence|exact HI].
Qed.
Lemma chain_inherits (m : mem) a b : inherits m a b -> exists n, forall k, n <= k -> In b (tl (chain k m a)).
Proof.
  induction 1 as [a p H|a p q H _ (n & IH)].
  - exists 2. intros k Hk. do 2 (destruct k as [|k]; [lia|]). cbn [chain tl]. rewrite getobj_at in H.
    destruct (obj_at m a) as [o|]; [|discriminate]. rewrite H. now left.
  - exists (S n). intros k Hk. destruct k as [|k]; [lia|]. cbn [chain tl]. rewrite getobj_at in H.
    destruct (obj_at m a) as [o|]; [|discriminate]. cbn [chain tl]. rewrite H.
    specialize (IH k ltac:(lia)). destruct k as [|k]; [destruct IH|]. now right.
Qed.
Lemma inst_spec (m : mem) a b : sane m ->
  (instance_of m (VObj a) (VObj b) = true <->
   exists f sc p, fn (getobj m b) = Some (f, sc) /\ variable m b prototype = Some (VObj p) /\ inherits m a p).
Proof.
  intros SN. rewrite instance_of_inst. unfold inst, variable. rewrite own_own_cell, getobj_at.
  destruct (obj_at m b) as [[pr po fo]|] eqn:EB; [|split; [discriminate|intros (f & sc & p & H & _); discriminate H]].
  cbn [fn]. destruct fo as [[f sc]|]; [|split; [discriminate|intros (f & sc & p & H & _); discriminate H]].
  destruct (own_cell m b prototype) as [c|]; cbn [option_map]; [|split; [discriminate|intros (? & ? & ? & _ & H & _); discriminate H]].
  rewrite <- readc_cell. destruct (readc m c) as [q|p]; [split; [discriminate|intros (? & ? & ? & _ & H & _); discriminate H]|].
  rewrite existsb_exists. split.
  - intros (x & Hx & Hp). apply Nat.eqb_eq in Hp. subst x. exists f, sc, p. split; [reflexivity|]. split; [reflexivity|].
    eapply inherits_chain, Hx.
  - intros (f' & sc' & p' & _ & Hp & Hi). injection Hp as <-. exists p. split; [|apply Nat.eqb_refl].
    destruct (chain_inherits _ _ _ Hi) as (n & Hn).
    specialize (Hn (S (S (length (objs m)) + n)) ltac:(lia)).
    rewrite (chain_enough m (S (S (length (objs m)))) (S (S (length (objs m)) + n)) a SN) by lia. exact Hn.
Qed.
End Protos.
