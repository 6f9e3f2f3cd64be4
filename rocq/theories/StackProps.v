(** Theorems about the stack API (C27). *)
From Coq Require Import ZArith List Bool Lia.
Import ListNotations.
From Verif Require Import Bits LimitModel EventProofs4 StackModel StackSpec.
Local Open Scope Z_scope.

Section S.
Variable V : Type.

Definition BIG := 369098750.   (* 22 * 2^24 - 2 *)

Definition grown (m : Z) : Prop := m = 0 \/ exists k, 0 <= k <= 24 /\ m = 22 * 2 ^ k - 2.

Record inv (s : stack V) (q : list V) : Prop := {
  i_len : len s = Z.of_nat (length q);
  i_max : Z.of_nat (length (vector s)) = maxlen s;
  i_grown : grown (maxlen s);
  i_vec : exists rest, vector s = map Some q ++ rest }.

Lemma grown_max : forall m, grown m -> 0 <= m <= BIG.
Proof.
  intros m [->|(k & Hk & ->)]; [unfold BIG; lia|].
  assert (2 ^ k <= 2 ^ 24) by (apply Z.pow_le_mono_r; lia).
  assert (0 < 2 ^ k) by (apply Z.pow_pos_nonneg; lia). unfold BIG. change (2 ^ 24) with 16777216 in *. lia.
Qed.
Lemma grown_next : forall m, grown m -> m < BIG -> grown (if m + 1 <? 20 then 20 else (m + 1) * 2).
Proof.
  intros m [->|(k & Hk & ->)] HB.
  - right. exists 0. split; [lia|]. reflexivity.
  - assert (1 <= 2 ^ k) by (assert (0 < 2 ^ k) by (apply Z.pow_pos_nonneg; lia); lia).
    destruct (22 * 2 ^ k - 2 + 1 <? 20) eqn:E; [b2p; lia|]. right. exists (k + 1).
    assert (k < 24).
    { assert (C : k < 24 \/ k = 24) by lia. destruct C as [C|C]; auto. subst k. unfold BIG in HB. change (2 ^ 24) with 16777216 in *. lia. }
    split; [lia|]. rewrite Z.pow_add_r by lia. change (2 ^ 1) with 2. lia.
Qed.

Lemma nth_map_some : forall (q : list V) n, (n < length q)%nat -> nth n (map Some q) None = nth_error q n.
Proof. induction q as [|x q IH]; intros [|n] H; simpl in *; try lia; auto. apply IH. lia. Qed.
Lemma slot_spec : forall s q i, inv s q -> 0 <= i < len s -> slot V i s = nth_error q (Z.to_nat i).
Proof.
  intros s q i [A B C (r & D)] H. unfold slot.
  assert (L : (length q <= length (vector s))%nat) by (rewrite D, app_length, map_length; lia).
  replace ((0 <=? i) && (i <? Z.of_nat (length (vector s)))) with true
    by (symmetry; apply andb_true_iff; split; [apply Z.leb_le|apply Z.ltb_lt]; lia).
  rewrite D, app_nth1 by (rewrite map_length; lia). apply nth_map_some. lia.
Qed.

Lemma push_ok : forall s q v, inv s q -> Z.of_nat (length (q ++ [v])) <= BIG ->
  exists s', stack_push V v s = Ok tt s' /\ inv s' (q ++ [v]).
Proof.
  intros s q v [A B C (r & D)] HB. rewrite app_length in HB. cbn [length] in HB.
  assert (LQ : (length q <= length (vector s))%nat) by (rewrite D, app_length, map_length; lia).
  pose proof (grown_max _ C) as GM. unfold BIG in *.
  unfold stack_push. rewrite (wrap32_id (len s + 1)) by lia.
  assert (MAIN : forall s1, len s1 = len s -> Z.of_nat (length (vector s1)) = maxlen s1 -> len s < maxlen s1 -> grown (maxlen s1) ->
     (exists r1, vector s1 = map Some q ++ r1) ->
     exists s', (if inside V (len s1) s1 then Ok tt (mkStack V (wrap32 (len s1 + 1)) (maxlen s1) (store V (len s1) v s1)) else Bad) = Ok tt s' /\ inv s' (q ++ [v])).
  { intros s1 E1 E2 E3 E4 (r1 & E5). rewrite E1. unfold inside.
    replace ((0 <=? len s) && (len s <? Z.of_nat (length (vector s1)))) with true
      by (symmetry; apply andb_true_iff; split; [apply Z.leb_le|apply Z.ltb_lt]; lia).
    eexists. split; [reflexivity|].
    assert (N : Z.to_nat (len s) = length (map (@Some V) q)) by (rewrite map_length; lia).
    assert (R1 : exists x r2, r1 = x :: r2).
    { destruct r1 as [|x r2]; eauto. rewrite app_nil_r in E5. exfalso. rewrite E5, map_length in E2. lia. }
    destruct R1 as (x & r2 & ->).
    assert (ST : store V (len s) v s1 = map Some (q ++ [v]) ++ r2).
    { unfold store. rewrite N, E5. rewrite firstn_app, Nat.sub_diag, firstn_all. cbn [firstn]. rewrite app_nil_r.
      rewrite skipn_app. rewrite skipn_all2 by lia. replace (S (length (map Some q)) - length (map (@Some V) q))%nat with 1%nat by lia.
      cbn [skipn app]. rewrite map_app. cbn [map]. rewrite <- app_assoc. reflexivity. }
    constructor; cbn [len maxlen vector].
    - rewrite wrap32_id by lia. rewrite app_length. cbn [length]. lia.
    - rewrite ST. rewrite E5 in E2. rewrite app_length, !map_length, ?app_length in *. cbn [length] in *. lia.
    - auto.
    - exists r2. exact ST. }
  destruct (maxlen s <? len s + 1) eqn:E.
  - assert (EM : len s = maxlen s) by zb. clear E.
    set (m := if len s + 1 <? 20 then 20 else wrap32 ((len s + 1) * 2)).
    assert (HG : grown m).
    { unfold m. rewrite wrap32_id by lia. rewrite EM. apply grown_next; auto. unfold BIG. lia. }
    assert (HM : len s < m). { unfold m. rewrite wrap32_id by lia. destruct (len s + 1 <? 20) eqn:E; b2p; lia. }
    pose proof (grown_max _ HG) as GM2. unfold BIG in GM2.
    apply MAIN; cbn [len maxlen vector]; auto.
    + unfold realloc. rewrite Z.mod_small by lia. rewrite (Z.mul_comm 8 m), Z.div_mul by lia.
      rewrite app_length, repeat_length, firstn_length. lia.
    + unfold realloc. rewrite Z.mod_small by lia. rewrite (Z.mul_comm 8 m), Z.div_mul by lia.
      rewrite firstn_all2 by lia. rewrite D. exists (r ++ repeat None (Z.to_nat m - length (map Some q ++ r))).
      now rewrite app_assoc.
  - apply MAIN; auto; [zb|eauto].
Qed.

Lemma last_of_snoc : forall (q : list V) x, last_of (q ++ [x]) = Some x.
Proof. intros. unfold last_of. now rewrite rev_app_distr. Qed.
Lemma snoc_case : forall (q : list V), q = [] \/ exists q' x, q = q' ++ [x].
Proof. intros q. induction q as [|x q _] using rev_ind; eauto. Qed.

Lemma free_loop_ok : forall s q, inv s q -> forall n i, (n + i = length q)%nat ->
  free_loop V n (Z.of_nat i) s = Some (skipn i q).
Proof.
  intros s q H. induction n as [|n IH]; intros i E; simpl.
  - now rewrite skipn_all2 by lia.
  - rewrite (slot_spec s q) by (auto; rewrite (i_len _ _ H); lia). rewrite Nat2Z.id.
    replace (Z.of_nat i + 1) with (Z.of_nat (S i)) by lia. rewrite IH by lia.
    destruct (nth_error q i) as [x|] eqn:N.
    + f_equal. apply nth_error_split in N. destruct N as (a & b & -> & <-).
      clear. induction a as [|y a IHa]; [reflexivity|exact IHa].
    + apply nth_error_None in N. lia.
Qed.

Lemma call_ok : forall c s q, inv s q -> Z.of_nat (length (snd (answers c q))) <= BIG ->
  exists s', do_call c s = Some (fst (answers c q), s') /\ inv s' (snd (answers c q)).
Proof.
  intros c s q H HB. pose proof (i_len _ _ H) as L. destruct c; cbn [do_call answers fst snd] in *.
  - destruct (push_ok s q v H HB) as (s' & -> & I). exists s'. auto.
  - unfold stack_pop. destruct (snoc_case q) as [->|(q' & x & ->)].
    + cbn [length] in L. rewrite L. cbn. eauto.
    + rewrite app_length in L. cbn [length] in L. destruct (len s =? 0) eqn:E; [b2p; lia|]. cbn [lift len].
      assert (I1 : inv (mkStack V (len s - 1) (maxlen s) (vector s)) q').
      { destruct H as [A B C (r & D)]. constructor; cbn [len maxlen vector]; auto; [lia|]. rewrite D, map_app, <- app_assoc. eauto. }
      assert (SL : slot V (len s - 1) (mkStack V (len s - 1) (maxlen s) (vector s)) = Some x).
      { change (slot V (len s - 1) (mkStack V (len s - 1) (maxlen s) (vector s))) with (slot V (len s - 1) s).
        rewrite (slot_spec s (q' ++ [x])) by (auto; lia). rewrite nth_error_app2 by lia.
        replace (Z.to_nat (len s - 1) - length q')%nat with 0%nat by lia. reflexivity. }
      rewrite SL. cbn [lift]. rewrite last_of_snoc, removelast_last. eauto.
  - unfold stack_unshift. destruct q as [|x q].
    + cbn [length] in L. rewrite L. cbn. eauto.
    + cbn [length] in L. destruct (len s =? 0) eqn:E; [b2p; lia|].
      rewrite (slot_spec s (x :: q)) by (auto; lia). cbn [nth_error Z.to_nat lift hd_error tl].
      assert (LV : (S (length q) <= length (vector s))%nat).
      { destruct H as [A B C (r & D)]. rewrite D. rewrite app_length, map_length. cbn [length]. lia. }
      replace ((0 <=? len s - 1) && (len s - 1 <? Z.of_nat (length (vector s)))) with true
        by (symmetry; apply andb_true_iff; split; [apply Z.leb_le|apply Z.ltb_lt]; lia).
      cbn [lift]. eexists. split; [reflexivity|]. destruct H as [A B C (r & D)]. constructor; cbn [len maxlen vector]; auto; [lia| |].
      * rewrite app_length, firstn_length, !skipn_length. lia.
      * replace (Z.to_nat (len s - 1)) with (length q) by lia. exists (skipn (length q) (vector s)). f_equal. rewrite D. cbn [map app skipn].
        rewrite firstn_app, firstn_all2 by (rewrite map_length; lia). rewrite map_length, Nat.sub_diag. cbn [firstn]. apply app_nil_r.
  - unfold stack_peek. destruct (snoc_case q) as [->|(q' & x & ->)].
    + cbn [length] in L. rewrite L. cbn. eauto.
    + rewrite app_length in L. cbn [length] in L. destruct (len s =? 0) eqn:E; [b2p; lia|].
      rewrite (slot_spec s (q' ++ [x])) by (auto; lia). rewrite nth_error_app2 by lia.
      replace (Z.to_nat (len s - 1) - length q')%nat with 0%nat by lia. cbn [nth_error lift]. rewrite last_of_snoc. eauto.
  - unfold stack_head. destruct q as [|x q].
    + cbn [length] in L. rewrite L. cbn. eauto.
    + cbn [length] in L. destruct (len s =? 0) eqn:E; [b2p; lia|].
      rewrite (slot_spec s (x :: q)) by (auto; lia). cbn. eauto.
  - unfold stack_size. cbn. rewrite L. eauto.
  - unfold stack_free_elements. assert (FL : (Z.to_nat (len s) + 0 = length q)%nat) by lia.
    apply (free_loop_ok s q H) in FL. cbn [Z.of_nat skipn] in FL. rewrite FL. cbn [lift].
    eexists. split; [reflexivity|]. destruct H as [A B C (r & D)]. constructor; cbn [len maxlen vector length]; auto. exists (vector s). reflexivity.
Qed.

Lemma inv_new : inv stack_new [].
Proof. constructor; simpl; auto; [left; auto|exists []; auto]. Qed.

Lemma calls_ok : forall cs s q, inv s q -> stays_below BIG cs q ->
  exists s', calls cs s = Some (all_answers cs q, s').
Proof.
  induction cs as [|c cs IH]; intros s q H [HB HR]; simpl; [eauto|].
  destruct (call_ok c s q H) as (s' & -> & I).
  { destruct cs; simpl in HR; tauto. }
  destruct (IH s' _ I HR) as (s2 & ->). destruct (answers c q) as [a q']. cbn [fst snd]. eauto.
Qed.

(** For every history of calls on a new stack, in which it never holds more than 369098750
    elements, every call answers as the sequence does and no slot outside the vector, or not yet
    written, is accessed. *)
Theorem stack_is_a_sequence : forall cs, stays_below 369098750 cs [] ->
  exists s, calls cs (@stack_new V) = Some (all_answers cs [], s).
Proof. intros cs H. apply (calls_ok cs stack_new []); auto. apply inv_new. Qed.

(** The bound is the exact one: filling a new stack with 369098750 elements and pushing one more
    writes outside the vector, because the size given to realloc is reduced mod 2^32. *)
Lemma push_run : forall vs s q, inv s q -> Z.of_nat (length q + length vs) <= BIG ->
  exists l s', calls (map Push vs) s = Some (l, s') /\ inv s' (q ++ vs).
Proof.
  induction vs as [|v vs IH]; intros s q H HB; simpl.
  - rewrite app_nil_r. eauto.
  - cbn [length] in HB. destruct (push_ok s q v H) as (s' & -> & I); [rewrite app_length; cbn [length]; lia|].
    cbn [lift]. destruct (IH s' _ I) as (l & s2 & -> & I2); [rewrite app_length; cbn [length]; lia|].
    rewrite <- app_assoc in I2. cbn [app] in I2. eauto.
Qed.
Lemma calls_app : forall a b s, calls (a ++ b) s =
  match @calls V a s with Some (l, s1) => match calls b s1 with Some (l2, s2) => Some (l ++ l2, s2) | None => None end | None => None end.
Proof.
  induction a as [|c a IH]; intros b s; simpl.
  - destruct (calls b s) as [[l s2]|]; auto.
  - destruct (do_call c s) as [[x s1]|]; auto. rewrite IH. destruct (calls a s1) as [[l s2]|]; auto.
    destruct (calls b s2) as [[l2 s3]|]; auto.
Qed.
Theorem stack_overflow_refuted : forall vs v, Z.of_nat (length vs) = 369098750 ->
  calls (map Push (vs ++ [v])) (@stack_new V) = None.
Proof.
  intros vs v H. rewrite map_app, calls_app.
  destruct (push_run vs stack_new [] inv_new) as (l & s & -> & I); [unfold BIG; simpl; lia|].
  cbn [app] in I. cbn [map calls do_call]. destruct I as [A B C (r & D)].
  pose proof (grown_max _ C) as GM. unfold BIG in GM.
  assert (LQ : (length vs <= length (vector s))%nat) by (rewrite D, app_length, map_length; lia).
  assert (M : maxlen s = 369098750) by lia. unfold stack_push. rewrite A, H, M. clear A.
  rewrite (wrap32_id (369098750 + 1)) by lia.
  change (369098750 <? 369098750 + 1) with true. change (369098750 + 1 <? 20) with false. cbn iota zeta.
  rewrite (wrap32_id ((369098750 + 1) * 2)) by lia. unfold inside. cbn [len vector]. unfold realloc.
  change (((8 * ((369098750 + 1) * 2)) mod 2 ^ 32) / 8) with 201326590.
  rewrite app_length, repeat_length, firstn_length.
  replace (_ && _) with false; auto. symmetry. apply andb_false_iff. right. apply Z.ltb_ge. lia.
Qed.

End S.

(** The hypotheses are met: more than twenty elements, so the vector grows, and every call. *)
Example stack_example :
  let h := map Push (map Z.of_nat (seq 0 50)) ++ [Pop; Unshift; Peek; Head; Size; FreeElements; Pop; Size] in
  stays_below 369098750 h [] /\
  exists l s, calls h (@stack_new Z) = Some (l, s) /\
    skipn 50 l = [AElem (Some 49); AElem (Some 0); AElem (Some 48); AElem (Some 1); ANum 48;
                  AFreed (map Z.of_nat (seq 1 48)); AElem None; ANum 0].
Proof.
  split.
  - cbn [map seq app stays_below answers snd length Z.of_nat]. repeat split; vm_compute; discriminate.
  - eexists. eexists. split; [vm_compute; reflexivity|reflexivity].
Qed.

Print Assumptions stack_is_a_sequence.
Print Assumptions stack_overflow_refuted.
