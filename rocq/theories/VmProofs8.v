(** * The late semantics of statements agrees with the standard one for well-behaved programs. *)
Require Import ZArith List Bool Lia.
From Verif Require Import VmModel VmSpec VmProofs VmProofs3 VmProofs5 VmProofs6 VmProofs7.
Import ListNotations.

Section Sync8.
Context {VS : vsys}.
Notation V := (val VS).
Notation st := (@state VS).
Notation env := (@env VS).

(* the pending exception *)
Definition pend (s : st) (v : V) : Prop :=
  (isundef VS (exc s) = true /\ emsg s = Some v) \/ (exc s = v /\ isundef VS v = false /\ emsg s = None).
Definition calmst (s : st) : Prop := isundef VS (exc s) = true /\ emsg s = None.
Definition keepx (cl : bool) (s s' : st) : Prop := (calmst s -> calmst s') /\ (cl = true -> same_exc s s').
Definition pre (cl : bool) (s : st) : Prop := calmst s \/ cl = true.
(* no catch block is waiting: the message of an error is printed at once *)
Definition short (d : list bool) : bool := match d with [] | [true] => true | _ => false end.
Definition told (d : list bool) (s : st) (v : V) : Prop := pend s v \/ (short d = true /\ calmst s /\ hd_error (logs s) = Some v).
Lemma pend_same : forall s s' v, same_exc s s' -> pend s v -> pend s' v.
Proof. intros s s' v (H1 & H2 & _). unfold pend. rewrite H1, H2. auto. Qed.
Lemma told_same : forall d s s' v, same_exc s s' -> told d s v -> told d s' v.
Proof. intros d s s' v H [K | [K1 [K2 K3]]]; [left; eapply pend_same; eassumption | right]. destruct H as (H1 & H2 & H3). unfold calmst in *. rewrite H1, H2, H3. auto. Qed.
Lemma calm_same : forall s s', same_exc s s' -> calmst s -> calmst s'.
Proof. intros s s' (H1 & H2 & _). unfold calmst. rewrite H1, H2. auto. Qed.

Definition agree (D : list nat) (d : list bool) (cl thr rt : bool) (js : list (kind * option nat)) (s : st)
  (r : option (@outcome VS * env)) (l : option (@lout VS * st)) : Prop :=
  match r, l with
  | None, None => True
  | Some (o, E'), Some (lo, s') =>
      match o, lo with
      | Norm, LNorm => rel D E' s' /\ keepx cl s s'
      | Brk k, LBrk k' => k = k' /\ In (KBreak, k) js /\ rel D E' s' /\ keepx cl s s'
      | Cnt k, LCnt k' => k = k' /\ In (KContinue, k) js /\ rel D E' s' /\ keepx cl s s'
      | Ret v, LRet v' => v = v' /\ (forall x, glob s' x = globals E' x) /\ rt = true
      | Thr v, LThr b => rel D E' s' /\ told d s' v /\ isundef VS v = false /\ cl = false /\ (b = true -> thr = true /\ pend s' v)
      | Thr v, LAbort => d = [] /\ (forall x, glob s' x = globals E' x) /\ pend s' v /\ cl = false
      | _, _ => False
      end
  | _, _ => False
  end.

Lemma keepx_refl : forall cl s, keepx cl s s.
Proof. intros. split; [auto | intros _; apply same_refl]. Qed.
Lemma keepx_trans : forall c1 c2 cl s1 s2 s3, keepx c1 s1 s2 -> keepx c2 s2 s3 -> (cl = true -> c1 = true) -> (cl = true -> c2 = true) -> keepx cl s1 s3.
Proof.
  intros c1 c2 cl s1 s2 s3 [A1 A2] [B1 B2] H1 H2. split; [auto | ]. intros H. eapply same_trans; eauto.
Qed.
Lemma keepx_same : forall cl s s', same_exc s s' -> keepx cl s s'.
Proof. intros cl s s' H. split; [apply calm_same; exact H | auto]. Qed.
Lemma pre_keep : forall cl s s', pre cl s -> keepx cl s s' -> pre cl s'.
Proof. intros cl s s' [H | H] [K1 K2]; [left; auto | right; exact H]. Qed.
Lemma pre_mono : forall c1 c2 s, pre c1 s -> (c1 = true -> c2 = true) -> pre c2 s.
Proof. intros c1 c2 s [H | H] K; [left; exact H | right; auto]. Qed.

(* agreement of a part, after [s0] went to [s], as agreement of the whole *)
Lemma agree_weak : forall D d c1 c2 cl t1 t2 r1 r2 j1 j2 s0 s r l,
  agree D d c1 t1 r1 j1 s r l -> keepx c2 s0 s ->
  (cl = true -> c1 = true) -> (cl = true -> c2 = true) -> (t1 = true -> t2 = true) -> (r1 = true -> r2 = true) -> incl j1 j2 ->
  agree D d cl t2 r2 j2 s0 r l.
Proof.
  intros D d c1 c2 cl t1 t2 r1 r2 j1 j2 s0 s r l H K Hc1 Hc2 Ht Hr Hj. unfold agree in *.
  destruct r as [[o E'] | ]; destruct l as [[lo s'] | ]; try exact H.
  assert (CF : c1 = false -> cl = false) by (intros E; destruct cl; [rewrite (Hc1 eq_refl) in E; discriminate | reflexivity]).
  destruct o, lo; try exact H.
  - destruct H as [H1 H2]. split; [exact H1 | eapply keepx_trans; eassumption].
  - destruct H as [H1 [H2 [H3 H4]]]. split; [exact H1 | split; [auto | split; [exact H3 | eapply keepx_trans; eassumption]]].
  - destruct H as [H1 [H2 [H3 H4]]]. split; [exact H1 | split; [auto | split; [exact H3 | eapply keepx_trans; eassumption]]].
  - destruct H as [H1 [H2 H3]]. auto.
  - destruct H as [H1 [H2 [H3 [H4 H5]]]]. do 4 (split; [auto | ]). intros HB. destruct (H5 HB). auto.
  - destruct H as [H1 [H2 [H3 H4]]]. auto.
Qed.

(** ** Expressions in statements *)
Lemma ok_e_agree : forall hd D (e : @expr VS) E s, ok_e D e = true -> rel D E s -> agree_e hd D e E s.
Proof.
  intros hd D e E s H HR. unfold ok_e in H. apply andb_true_iff in H. destruct H as [H H3]. apply andb_true_iff in H. destruct H.
  apply eval_ok; assumption.
Qed.

Definition val_ok (hd : bool) (D : list nat) (e : @expr VS) (E : env) (s : st) : Prop :=
  match eval e E with
  | inl (v, E') => exists s', lval hd e s = inl (v, s') /\ rel D E' s' /\ same_exc s s' /\ (defd D e = true -> isundef VS v = false)
  | inr (m, E') => exists s', lval hd e s = inr s' /\ rel D E' s' /\ exc s' = exc s /\ logged hd m s s' /\ isundef VS m = false /\ calm_e e = false
  end.
Lemma ok_val : forall hd D (e : @expr VS) E s, ok_e D e = true -> rel D E s -> val_ok hd D e E s.
Proof.
  intros hd D e E s H HR. pose proof (ok_e_agree hd D e E s H HR) as A. unfold agree_e in A. unfold val_ok, lval.
  destruct (eval e E) as [[v E'] | [m E']].
  - destruct A as [a [s' [H1 [H2 [H3 [H4 H5]]]]]]. rewrite H1, (slot_deref _ _ _ _ H3). exists s'. auto.
  - destruct A as [s' [H1 H2]]. rewrite H1. exists s'. auto.
Qed.
Lemma ok_disc : forall hd D (e : @expr VS) E s, ok_d D e = true -> rel D E s ->
  match eval e E with
  | inl (_, E') => exists a s', leval hd e s = inl (a, s') /\ rel D E' s' /\ same_exc s s'
  | inr (m, E') => exists s', leval hd e s = inr s' /\ rel D E' s' /\ exc s' = exc s /\ logged hd m s s' /\ isundef VS m = false /\ calm_e e = false
  end.
Proof.
  intros hd D e E s H HR.
  assert (G : ok_e D e = true -> match eval e E with
  | inl (_, E') => exists a s', leval hd e s = inl (a, s') /\ rel D E' s' /\ same_exc s s'
  | inr (m, E') => exists s', leval hd e s = inr s' /\ rel D E' s' /\ exc s' = exc s /\ logged hd m s s' /\ isundef VS m = false /\ calm_e e = false
  end).
  { intros HO. pose proof (ok_e_agree hd D e E s HO HR) as A. unfold agree_e in A.
    destruct (eval e E) as [[v E'] | [m E']]; [ | exact A].
    destruct A as [a [s' [H1 [H2 [H3 [H4 H5]]]]]]. exists a, s'. auto. }
  destruct e; try (apply G; exact H). clear G.
  cbn [eval leval calm_e]. rewrite (rd_get D _ _ _ HR).
  pose proof (wr_set D E s x (step1 VS inc (tonum VS (get E x))) HR (fun _ => step_def VS _ _)) as HW.
  pose proof (inc_safe_ok VS (tonum VS (get E x))) as IS. pose proof (numerr_def VS (tonum VS (get E x))) as ND.
  destruct (numerr VS (tonum VS (get E x))) as [m | ].
  - eexists. split; [reflexivity | split; [apply rel_emsg; exact HW | split; [apply log_op, wr_exc | split; [apply log_op, wr_exc | split; [apply ND; reflexivity | ]]]]].
    + destruct (inc_safe VS); [discriminate (IS eq_refl) | reflexivity].
  - eexists _, _. split; [reflexivity | split; [exact HW | apply wr_exc]].
Qed.

(* an error inside an expression: the statement throws *)
Lemma agree_err : forall D d cl thr rt js s s' (E' : env) m, rel D E' s' -> exc s' = exc s -> logged (hold d) m s s' -> isundef VS m = false -> heard d = true -> cl = false ->
  pre cl s -> agree D d cl thr rt js s (Some (Thr m, E')) (Some (LThr false, s')).
Proof.
  intros D d cl thr rt js s s' E' m H1 H2 H3 H4 HH H5 HP. cbn [agree]. split; [exact H1 | split; [ | split; [exact H4 | split; [exact H5 | discriminate]]]].
  destruct HP as [[HP1 HP2] | HP]; [ | congruence]. unfold told, pend, calmst. rewrite H2.
  destruct d as [ | [ | ] [ | b d]]; cbn [hold heard negb short logged] in *; try discriminate.
  - right. destruct H3 as [H3 H3']. rewrite H3. auto.
  - right. destruct H3 as [H3 H3']. rewrite H3. auto.
  - left. left. auto.
  - left. left. auto.
Qed.
Lemma hear_heard : forall d (e : @expr VS), hear d e = true -> calm_e e = false -> heard d = true.
Proof. intros d e H C. unfold hear in H. rewrite C, orb_false_r in H. exact H. Qed.
Lemma hear_o_heard : forall d (e : option (@expr VS)), hear_o d e = true -> calm_o e = false -> heard d = true.
Proof. intros d e H C. unfold hear_o in H. rewrite C, orb_false_r in H. exact H. Qed.
Ltac heard := first [assumption
  | match goal with H : calm_e _ = false |- _ => eapply hear_heard; [ | exact H]; assumption end
  | match goal with H : calm_o _ = false |- _ => eapply hear_o_heard; [ | exact H]; assumption end].

(** ** Loops *)
Lemma iterate_sync : forall X Y (R : X -> Y -> Prop) (A : option (@outcome VS * env) -> option (@lout VS * st) -> Prop)
  (one : X -> option (X + @outcome VS * env)) (lone : Y -> option (Y + @lout VS * st)),
  A None None ->
  (forall x y, R x y -> match one x, lone y with
    | None, None => True
    | Some (inl x'), Some (inl y') => R x' y'
    | Some (inr r), Some (inr l) => A (Some r) (Some l)
    | _, _ => False
    end) ->
  forall k x y, R x y -> A (iterate k one x) (iterate k lone y).
Proof.
  intros X Y R A one lone HN H. induction k as [ | k IH]; intros x y HR; cbn [iterate]; [exact HN | ].
  specialize (H x y HR). destruct (one x) as [[x' | r] | ]; destruct (lone y) as [[y' | l] | ]; try contradiction; [apply IH; exact H | exact H | exact HN].
Qed.

(* after the body of a loop: [js] are the jumps that leave the body *)
Lemma agree_after : forall D d c1 cl thr rt js w s0 s r l, 
  agree D d c1 thr rt js s r l -> keepx cl s0 s -> (cl = true -> c1 = true) ->
  match r, l with
  | None, None => True
  | Some (o, E'), Some (lo, s') =>
      match after_body w o, lafter w lo with
      | inl _, inl _ => rel D E' s' /\ keepx cl s0 s'
      | inr o', inr lo' => agree D d cl thr rt (filter (keep false w) js) s0 (Some (o', E')) (Some (lo', s'))
      | _, _ => False
      end
  | _, _ => False
  end.
Proof.
  intros D d c1 cl thr rt js w s0 s r l H K Hc. unfold agree in H. destruct r as [[o E'] | ]; destruct l as [[lo s'] | ]; try exact H.
  assert (CF : c1 = false -> cl = false) by (intros E; destruct cl; [rewrite (Hc eq_refl) in E; discriminate | reflexivity]).
  destruct o as [ | k | k | v | v]; destruct lo; cbn [after_body lafter]; try contradiction.
  - destruct H as [H1 H2]. split; [exact H1 | eapply keepx_trans; eauto].
  - destruct H as [H1 [H2 [H3 H4]]]. subst l. rewrite hit_mine. destruct (mine k w) eqn:EM; cbn [agree].
    + split; [exact H3 | eapply keepx_trans; eauto].
    + split; [reflexivity | split; [ | split; [exact H3 | eapply keepx_trans; eauto]]].
      apply filter_In. split; [exact H2 | ]. cbn [keep]. rewrite EM. reflexivity.
  - destruct H as [H1 [H2 [H3 H4]]]. subst l. rewrite hit_mine. destruct (mine k w) eqn:EM; cbn [agree].
    + split; [exact H3 | eapply keepx_trans; eauto].
    + split; [reflexivity | split; [ | split; [exact H3 | eapply keepx_trans; eauto]]].
      apply filter_In. split; [exact H2 | ]. cbn [keep]. rewrite EM. reflexivity.
  - cbn [agree]. exact H.
  - cbn [agree]. destruct H as [H1 [H2 [H3 [H4 H5]]]]. do 4 (split; [auto | ]). auto.
  - cbn [agree]. destruct H as [H1 [H2 [H3 H4]]]. auto.
Qed.

(** ** The statement predicates *)
Definition good (x : @stmt VS) : Prop := forall f D d E s, wf D d x = true -> rel D E s -> pre (calm x) s ->
  agree D d (calm x) (throwing x) (returns x) (escapes x) s (exec f x E) (lx f d x s).
Definition goods (cs : @cases VS) : Prop := forall f D d E s i, wf_cs D d cs = true -> rel D E s -> pre (calm_cs cs) s ->
  agree D d (calm_cs cs) (throwing_cs cs) (returns_cs cs) (escapes_cs cs) s (exec_from f cs i E) (lxf f d cs i s).

Ltac bsplit := repeat match goal with H : _ && _ = true |- _ => apply andb_true_iff in H; destruct H end.
Ltac bimp := let HH := fresh in intros HH; rewrite ?andb_true_iff, ?orb_true_iff in HH; rewrite ?andb_true_iff, ?orb_true_iff;
  repeat match goal with H : _ /\ _ |- _ => destruct H end; first [reflexivity | assumption | (repeat split; assumption) | (left; assumption) | (right; assumption) | tauto].
Ltac cff := repeat match goal with H : calm_e _ = false |- _ => rewrite H; clear H end; rewrite ?andb_false_r; reflexivity.

(* what is left of the precondition after a part that has been executed *)
Lemma pre_next : forall cl c1 c2 s s', pre cl s -> keepx c1 s s' -> (cl = true -> c2 = true) -> pre c2 s'.
Proof. intros cl c1 c2 s s' [H | H] [K1 K2] Hc; [left; auto | right; auto]. Qed.

Lemma good_seq : forall a b, good a -> good b -> good (SSeq a b).
Proof.
  intros a b IHa IHb f D d E s HW HR HP. cbn [wf calm throwing returns escapes exec lx] in *. bsplit.
  specialize (IHa f D d E s ltac:(assumption) HR ltac:(eapply pre_mono; [exact HP | bimp])).
  pose proof (agree_weak D d (calm a) (calm a && calm b) (calm a && calm b) (throwing a) (throwing a || throwing b) (returns a) (returns a || returns b)
    (escapes a) (escapes a ++ escapes b) s s _ _ IHa (keepx_refl _ _) ltac:(bimp) ltac:(bimp) ltac:(bimp) ltac:(bimp) ltac:(apply incl_appl, incl_refl)) as IHa'.
  unfold agree in IHa. destruct (exec f a E) as [[o E'] | ]; destruct (lx f d a s) as [[lo s'] | ]; try contradiction; [ | exact IHa'].
  destruct o, lo; try contradiction; try exact IHa'.
  destruct IHa as [HR' HK].
  eapply agree_weak with (c2 := calm a); [eapply IHb; [assumption | exact HR' | ] | exact HK | bimp | bimp | bimp | bimp | apply incl_appr, incl_refl].
  eapply pre_next; [exact HP | exact HK | bimp].
Qed.

Lemma good_if : forall c a b, good a -> good b -> good (SIfElse c a b).
Proof.
  intros c a b IHa IHb f D d E s HW HR HP. cbn [wf calm throwing returns escapes exec lx] in *. bsplit.
  pose proof (ok_val (hold d) D c E s ltac:(assumption) HR) as A. unfold val_ok in A.
  destruct (eval c E) as [[v E'] | [m E']].
  - destruct A as [s' [H1' [H2' [H3' H4']]]]. rewrite H1'. destruct (truthy VS v).
    + eapply agree_weak with (c2 := true); [eapply IHa; [assumption | exact H2' | ] | apply keepx_same; exact H3' | bimp | bimp | bimp | bimp | apply incl_appl, incl_refl].
      eapply pre_next with (c1 := true); [exact HP | apply keepx_same; exact H3' | bimp].
    + eapply agree_weak with (c2 := true); [eapply IHb; [assumption | exact H2' | ] | apply keepx_same; exact H3' | bimp | bimp | bimp | bimp | apply incl_appr, incl_refl].
      eapply pre_next with (c1 := true); [exact HP | apply keepx_same; exact H3' | bimp].
  - destruct A as [s' [H1' [H2' [H3' [H4' [H5' H6']]]]]]. rewrite H1'.
    apply agree_err; try assumption; [heard | rewrite H6'; reflexivity].
Qed.

Lemma good_if1 : forall c a, good a -> good (SIf c a).
Proof.
  intros c a IHa f D d E s HW HR HP. cbn [wf calm throwing returns escapes exec lx] in *. bsplit.
  pose proof (ok_val (hold d) D c E s ltac:(assumption) HR) as A. unfold val_ok in A.
  destruct (eval c E) as [[v E'] | [m E']].
  - destruct A as [s' [H1' [H2' [H3' H4']]]]. rewrite H1'. destruct (truthy VS v).
    + eapply agree_weak with (c2 := true); [eapply IHa; [assumption | exact H2' | ] | apply keepx_same; exact H3' | bimp | bimp | bimp | bimp | apply incl_refl].
      eapply pre_next with (c1 := true); [exact HP | apply keepx_same; exact H3' | bimp].
    + cbn [agree]. split; [exact H2' | apply keepx_same; exact H3'].
  - destruct A as [s' [H1' [H2' [H3' [H4' [H5' H6']]]]]]. rewrite H1'.
    apply agree_err; try assumption; [heard | rewrite H6'; reflexivity].
Qed.

Lemma good_while : forall l c a, good a -> good (SWhile l c a).
Proof.
  intros l c a IHa f D d E s HW HR HP. cbn [wf calm throwing returns escapes exec lx] in *. bsplit.
  apply (iterate_sync _ _ (fun (E' : env) s' => rel D E' s' /\ keepx (calm_e c && calm a) s s')); [exact I | | split; [exact HR | apply keepx_refl]].
  intros E1 s1 [HR1 HK1].
  pose proof (ok_val (hold d) D c E1 s1 ltac:(assumption) HR1) as A. unfold val_ok in A.
  destruct (eval c E1) as [[v E'] | [m E']].
  - destruct A as [s' [H1' [H2' [H3' H4']]]]. rewrite H1'. destruct (truthy VS v).
    + specialize (IHa f D d E' s' ltac:(assumption) H2').
      assert (K' : keepx (calm_e c && calm a) s s') by (eapply keepx_trans; [exact HK1 | apply (keepx_same true); exact H3' | auto | auto]).
      specialize (IHa ltac:(eapply pre_next; [exact HP | exact K' | bimp])).
      pose proof (agree_after _ _ _ (calm_e c && calm a) _ _ _ l s s' _ _ IHa K' ltac:(bimp)) as G.
      destruct (exec f a E') as [[o E2] | ]; destruct (lx f d a s') as [[lo s2] | ]; try contradiction; [ | exact I].
      destruct (after_body l o); destruct (lafter l lo); try contradiction; exact G.
    + cbn [agree]. split; [exact H2' | eapply keepx_trans; [exact HK1 | apply (keepx_same true); exact H3' | auto | auto]].
  - destruct A as [s' [H1' [H2' [H3' [H4' [H5' H6']]]]]]. rewrite H1'.
    eapply agree_weak with (c2 := calm_e c && calm a); [apply (agree_err D d (calm_e c && calm a) (throwing a) (returns a) [] s1 s'); try eassumption | exact HK1 | auto | auto | auto | auto | intros z []].
    + heard.
    + rewrite H6'. reflexivity.
    + eapply pre_next; [exact HP | exact HK1 | auto].
Qed.

Lemma good_do : forall l a c, good a -> good (SDo l a c).
Proof.
  intros l a c IHa f D d E s HW HR HP. cbn [wf calm throwing returns escapes exec lx] in *. bsplit.
  apply (iterate_sync _ _ (fun (E' : env) s' => rel D E' s' /\ keepx (calm_e c && calm a) s s')); [exact I | | split; [exact HR | apply keepx_refl]].
  intros E1 s1 [HR1 HK1].
  specialize (IHa f D d E1 s1 ltac:(assumption) HR1 ltac:(eapply pre_next; [exact HP | exact HK1 | bimp])).
  pose proof (agree_after _ _ _ (calm_e c && calm a) _ _ _ l s s1 _ _ IHa HK1 ltac:(bimp)) as G.
  destruct (exec f a E1) as [[o E2] | ]; destruct (lx f d a s1) as [[lo s2] | ]; try contradiction; [ | exact I].
  destruct (after_body l o) as [u | o']; destruct (lafter l lo) as [u' | lo']; try contradiction; [ | exact G].
  destruct G as [HR2 HK2].
  pose proof (ok_val (hold d) D c E2 s2 ltac:(assumption) HR2) as A. unfold val_ok in A.
  destruct (eval c E2) as [[v E'] | [m E']].
  - destruct A as [s' [H1' [H2' [H3' H4']]]]. rewrite H1'.
    assert (K' : keepx (calm_e c && calm a) s s') by (eapply keepx_trans; [exact HK2 | apply (keepx_same true); exact H3' | auto | auto]).
    destruct (truthy VS v); [split; assumption | cbn [agree]; split; assumption].
  - destruct A as [s' [H1' [H2' [H3' [H4' [H5' H6']]]]]]. rewrite H1'.
    eapply agree_weak with (c2 := calm_e c && calm a); [apply (agree_err D d (calm_e c && calm a) (throwing a) (returns a) [] s2 s'); try eassumption | exact HK2 | auto | auto | auto | auto | intros z []].
    + heard.
    + rewrite H6'. reflexivity.
    + eapply pre_next; [exact HP | exact HK2 | auto].
Qed.

Lemma good_for : forall l i c stp a, good i -> good a -> good (SFor l i c stp a).
Proof.
  intros l i c stp a IHi IHa f D d E s HW HR HP. cbn [wf calm throwing returns escapes exec lx] in *. bsplit.
  set (CL := calm i && calm_o c && calm_o stp && calm a) in *.
  specialize (IHi f D d E s ltac:(assumption) HR ltac:(eapply pre_mono; [exact HP | unfold CL; bimp])).
  pose proof (agree_weak D d (calm i) CL CL (throwing i) (throwing i || throwing a) (returns i) (returns i || returns a)
    (escapes i) (escapes i ++ filter (keep false l) (escapes a)) s s _ _ IHi (keepx_refl _ _) ltac:(unfold CL; bimp) ltac:(bimp) ltac:(bimp) ltac:(bimp) ltac:(apply incl_appl, incl_refl)) as IHi'.
  unfold agree in IHi. destruct (exec f i E) as [[o E0] | ]; destruct (lx f d i s) as [[lo s0] | ]; try contradiction; [ | exact IHi'].
  destruct o, lo; try contradiction; try exact IHi'. clear IHi'. destruct IHi as [HR0 HK0].
  apply (iterate_sync _ _ (fun (E' : env) s' => rel D E' s' /\ keepx CL s s')); [exact I | | split; [exact HR0 | eapply keepx_trans; [exact HK0 | apply (keepx_refl true) | unfold CL; bimp | bimp]]].
  intros E1 s1 [HR1 HK1].
  assert (A : match opt_cond c E1 with
    | inl (v, E') => exists s', lcond (hold d) c s1 = inl (v, s') /\ rel D E' s' /\ same_exc s1 s'
    | inr (m, E') => exists s', lcond (hold d) c s1 = inr s' /\ rel D E' s' /\ exc s' = exc s1 /\ logged (hold d) m s1 s' /\ isundef VS m = false /\ calm_o c = false
    end).
  { destruct c as [c | ]; cbn [opt_cond lcond calm_o ok_o] in *.
    - pose proof (ok_val (hold d) D c E1 s1 ltac:(assumption) HR1) as A. unfold val_ok in A. destruct (eval c E1) as [[v E'] | [m E']]; [ | exact A].
      destruct A as [s' [H1' [H2' [H3' H4']]]]. exists s'. auto.
    - exists s1. split; [reflexivity | split; [exact HR1 | apply same_refl]]. }
  destruct (opt_cond c E1) as [[v E'] | [m E']].
  - destruct A as [s' [H1' [H2' H3']]]. rewrite H1'.
    assert (K' : keepx CL s s') by (eapply keepx_trans; [exact HK1 | apply (keepx_same true); exact H3' | auto | auto]).
    destruct (truthy VS v).
    + specialize (IHa f D d E' s' ltac:(assumption) H2' ltac:(eapply pre_next; [exact HP | exact K' | unfold CL; bimp])).
      pose proof (agree_after _ _ _ CL _ _ _ l s s' _ _ IHa K' ltac:(unfold CL; bimp)) as G.
      destruct (exec f a E') as [[o E2] | ]; destruct (lx f d a s') as [[lo s2] | ]; try contradiction; [ | exact I].
      destruct (after_body l o) as [u | o']; destruct (lafter l lo) as [u' | lo']; try contradiction.
      2: { eapply agree_weak with (c2 := CL); [exact G | apply keepx_refl | auto | auto | bimp | bimp | apply incl_appr, incl_refl]. }
      destruct G as [HR2 HK2]. destruct stp as [e | ]; cbn [opt_step lstep ok_do] in *; [ | split; assumption].
      pose proof (ok_disc (hold d) D e E2 s2 ltac:(assumption) HR2) as B. destruct (eval e E2) as [[v3 E3] | [m3 E3]].
      * destruct B as [b [s3 [B1 [B2 B3]]]]. rewrite B1. split; [exact B2 | eapply keepx_trans; [exact HK2 | apply (keepx_same true); exact B3 | auto | auto]].
      * destruct B as [s3 [B1 [B2 [B3 [B4 [B5 B6]]]]]]. rewrite B1.
        assert (CF : CL = false) by (unfold CL; cbn [calm_o]; rewrite B6; rewrite ?andb_false_r; reflexivity).
        eapply agree_weak with (c2 := CL); [apply (agree_err D d CL false false [] s2 s3); try eassumption; try heard | exact HK2 | auto | auto | discriminate | discriminate | intros z []].
        eapply pre_next; [exact HP | exact HK2 | auto].
    + cbn [agree]. split; assumption.
  - destruct A as [s' [H1' [H2' [H3' [H4' [H5' H6']]]]]]. rewrite H1'.
    assert (CF : CL = false) by (unfold CL; rewrite H6'; rewrite ?andb_false_r; reflexivity).
    assert (HH : heard d = true) by heard.
    eapply agree_weak with (c2 := CL); [apply (agree_err D d CL false false [] s1 s'); try eassumption | exact HK1 | auto | auto | discriminate | discriminate | intros z []].
    eapply pre_next; [exact HP | exact HK1 | auto].
Qed.

Lemma good_forin : forall l o x e a, good a -> good (SForIn l o x e a).
Proof.
  intros l o x e a IHa f D d E s HW HR HP. cbn [wf calm throwing returns escapes exec lx] in *. bsplit.
  set (CL := calm_e e && keys_safe VS && calm a) in *.
  match goal with H : negb _ = true |- _ => apply negb_true_iff in H; rename H into HX end.
  pose proof (ok_val (hold d) D e E s ltac:(assumption) HR) as A. unfold val_ok in A.
  destruct (eval e E) as [[v E'] | [m E']].
  2: { destruct A as [s' [H1' [H2' [H3' [H4' [H5' H6']]]]]]. rewrite H1'.
    apply agree_err; try assumption; [heard | unfold CL; rewrite H6'; reflexivity]. }
  destruct A as [s' [H1' [H2' [H3' H4']]]]. rewrite H1'.
  pose proof (keys_safe_ok VS o v) as KS. pose proof (keys_def VS o v) as KD.
  destruct (keysof VS o v) as [ks | m].
  2: { assert (SF : keys_safe VS = false) by (destruct (keys_safe VS); [destruct (KS eq_refl); discriminate | reflexivity]).
    assert (CF : CL = false) by (unfold CL; rewrite SF, andb_false_r; reflexivity).
    assert (HH : heard d = true).
    { match goal with H : heard d || keys_safe VS = true |- _ => rewrite SF, orb_false_r in H; exact H end. }
    apply agree_err; try assumption; [apply rel_emsg; exact H2' | apply log_op; exact H3' | apply log_op; exact H3' | apply KD; reflexivity]. }
  apply (iterate_sync _ _ (fun (p : list V * env) (q : list V * st) => fst p = fst q /\ rel D (snd p) (snd q) /\ keepx CL s (snd q)));
    [exact I | | split; [reflexivity | split; [exact H2' | apply keepx_same; exact H3']]].
  intros [k1 E1] [k2 s1] [HE [HR1 HK1]]. cbn [fst snd] in *. subst k2.
  destruct k1 as [ | k k1]; [cbn [agree]; split; assumption | ].
  assert (HR2 : rel D (set E1 x k) (wrloc s1 (resolve s1 x) k)) by (apply wr_set; [exact HR1 | rewrite HX; discriminate]).
  assert (K' : keepx CL s (wrloc s1 (resolve s1 x) k)).
  { eapply keepx_trans; [exact HK1 | apply (keepx_same true); apply wr_exc | auto | auto]. }
  specialize (IHa f D d _ _ ltac:(assumption) HR2 ltac:(eapply pre_next; [exact HP | exact K' | unfold CL; bimp])).
  pose proof (agree_after _ _ _ CL _ _ _ l s _ _ _ IHa K' ltac:(unfold CL; bimp)) as G.
  destruct (exec f a (set E1 x k)) as [[o' E2] | ]; destruct (lx f d a (wrloc s1 (resolve s1 x) k)) as [[lo s2] | ]; try contradiction; [ | exact I].
  destruct (after_body l o') as [u | o'']; destruct (lafter l lo) as [u' | lo']; try contradiction; [ | exact G].
  cbn [fst snd]. split; [reflexivity | exact G].
Qed.

Lemma exec_switch : forall f l e cs (E : env), exec f (SSwitch l e cs) E =
  match eval e E with
  | inr (m, E') => Some (Thr m, E')
  | inl (v, E') =>
      match pick v cs E' 0 with
      | inr (m, E'') => Some (Thr m, E'')
      | inl (p, E'') =>
          match (match p with Some i => Some i | None => default_of cs 0 end) with
          | None => Some (Norm, E'')
          | Some i =>
              match exec_from f cs i E'' with
              | Some (Brk lb, E3) => if mine lb l then Some (Norm, E3) else Some (Brk lb, E3)
              | r => r
              end
          end
      end
  end.
Proof. reflexivity. Qed.
Lemma lx_switch : forall f d l e cs (s : st), lx f d (SSwitch l e cs) s =
  match lval (hold d) e s with
  | inr s' => Some (LThr false, s')
  | inl (v, s') =>
      match lpick (hold d) v cs s' 0 with
      | inr s'' => Some (LThr false, s'')
      | inl (p, s'') =>
          match (match p with Some i => Some i | None => default_of cs 0 end) with
          | None => Some (LNorm, s'')
          | Some i =>
              match lxf f d cs i s'' with
              | Some (LBrk lb, s3) => if label_hit lb l then Some (LNorm, s3) else Some (LBrk lb, s3)
              | r => r
              end
          end
      end
  end.
Proof. reflexivity. Qed.
Lemma exec_from_cons : forall f e x cs i (E : env), exec_from f (CCons e x cs) i E =
  match i with
  | S i' => exec_from f cs i' E
  | O => match exec f x E with Some (Norm, E') => exec_from f cs 0 E' | r => r end
  end.
Proof. reflexivity. Qed.
Lemma wf_switch : forall D d l (e : @expr VS) cs, wf D d (SSwitch l e cs) = ok_e D e && hear d e && (heard d || bin_safe VS StrictEq) && wf_cs D d cs.
Proof. reflexivity. Qed.
Lemma calm_switch : forall l (e : @expr VS) cs, calm (SSwitch l e cs) = calm_e e && bin_safe VS StrictEq && calm_cs cs.
Proof. reflexivity. Qed.
Lemma throwing_switch : forall l (e : @expr VS) cs, throwing (SSwitch l e cs) = throwing_cs cs.
Proof. reflexivity. Qed.
Lemma returns_switch : forall l (e : @expr VS) cs, returns (SSwitch l e cs) = returns_cs cs.
Proof. reflexivity. Qed.
Lemma escapes_switch : forall l (e : @expr VS) cs, escapes (SSwitch l e cs) = filter (keep true l) (escapes_cs cs).
Proof. reflexivity. Qed.
Lemma wf_cons : forall D d e (x : @stmt VS) cs, wf_cs D d (CCons e x cs) = ok_o D e && hear_o d e && wf D d x && wf_cs D d cs.
Proof. reflexivity. Qed.
Lemma calm_cons : forall e (x : @stmt VS) cs, calm_cs (CCons e x cs) = calm_o e && calm x && calm_cs cs.
Proof. reflexivity. Qed.
Lemma throwing_cons : forall e (x : @stmt VS) cs, throwing_cs (CCons e x cs) = throwing x || throwing_cs cs.
Proof. reflexivity. Qed.
Lemma returns_cons : forall e (x : @stmt VS) cs, returns_cs (CCons e x cs) = returns x || returns_cs cs.
Proof. reflexivity. Qed.

Lemma pick_sync : forall v cs D d (E : env) s i, wf_cs D d cs = true -> heard d || bin_safe VS StrictEq = true -> rel D E s ->
  match pick v cs E i with
  | inl (p, E') => exists s', lpick (hold d) v cs s i = inl (p, s') /\ rel D E' s' /\ same_exc s s'
  | inr (m, E') => exists s', lpick (hold d) v cs s i = inr s' /\ rel D E' s' /\ exc s' = exc s /\ logged (hold d) m s s' /\ isundef VS m = false /\
                     bin_safe VS StrictEq && calm_cs cs = false /\ heard d = true
  end.
Proof.
  induction cs as [ | e x cs IH]; intros D d E s i HW HS HR; [ | rewrite wf_cons in HW; rewrite calm_cons]; cbn [pick lpick].
  - exists s. split; [reflexivity | split; [exact HR | apply same_refl]].
  - bsplit. destruct e as [e | ]; cbn [ok_o calm_o] in *.
    + pose proof (ok_e_agree (hold d) D e E s ltac:(assumption) HR) as A. unfold agree_e in A. unfold bindr.
      destruct (eval e E) as [[w E'] | [m E']].
      * destruct A as [a [s' [H1' [H2' [H3' [H4' H5']]]]]]. rewrite H1'. cbn [lbind]. rewrite (slot_deref _ _ _ _ H3'). unfold ofop, lop.
        pose proof (bin_def VS StrictEq v w) as BD. pose proof (bin_safe_ok VS StrictEq v w) as BS.
        destruct (binop VS StrictEq v w) as [b | m].
        { cbn [deref]. destruct (truthy VS b).
          - exists s'. auto.
          - specialize (IH D d E' s' (S i) ltac:(assumption) HS H2').
            destruct (pick v cs E' (S i)) as [[p E''] | [m E'']].
            + destruct IH as [s'' [K1 [K2 K3]]]. exists s''. split; [exact K1 | split; [exact K2 | eapply same_trans; eassumption]].
            + destruct IH as [s'' [K1 [K2 [K3 [K4 [K5 [K6 K7]]]]]]]. exists s''. split; [exact K1 | split; [exact K2 | split; [ | split; [eapply logged_pre; eassumption | split; [exact K5 | split; [ | exact K7]]]]]].
              * destruct H4'. congruence.
              * destruct (bin_safe VS StrictEq); cbn [andb] in *; [rewrite K6; rewrite ?andb_false_r; reflexivity | reflexivity]. }
        { eexists. split; [reflexivity | split; [apply rel_emsg; exact H2' | split; [apply log_op; exact H4' | split; [apply log_op; exact H4' | split; [exact BD | ]]]]].
          destruct (bin_safe VS StrictEq); [destruct (BS eq_refl); discriminate | ]. rewrite orb_false_r in HS. auto. }
      * destruct A as [s' [K1 [K2 [K3 [K4 [K5 K6]]]]]]. rewrite K1. cbn [lbind]. exists s'.
        assert (HH : heard d = true) by (eapply hear_heard; [ | exact K6]; assumption).
        rewrite K6. cbn [andb]. rewrite andb_false_r. auto 10.
    + specialize (IH D d E s (S i) ltac:(assumption) HS HR).
      destruct (pick v cs E (S i)) as [[p E''] | [m E'']]; [exact IH | ].
      destruct IH as [s'' [K1 [K2 [K3 [K4 [K5 [K6 K7]]]]]]]. exists s''. split; [exact K1 | split; [exact K2 | split; [exact K3 | split; [exact K4 | split; [exact K5 | split; [ | exact K7]]]]]].
      destruct (bin_safe VS StrictEq); cbn [andb] in *; [rewrite K6; rewrite ?andb_false_r; reflexivity | reflexivity].
Qed.

Lemma good_switch : forall l e cs, goods cs -> good (SSwitch l e cs).
Proof.
  intros l e cs IH f D d E s HW HR HP. rewrite wf_switch in HW. rewrite calm_switch in *. rewrite throwing_switch, returns_switch, escapes_switch, exec_switch, lx_switch. bsplit.
  set (CL := calm_e e && bin_safe VS StrictEq && calm_cs cs) in *.
  pose proof (ok_val (hold d) D e E s ltac:(assumption) HR) as A. unfold val_ok in A.
  destruct (eval e E) as [[v E'] | [m E']].
  2: { destruct A as [s' [H1' [H2' [H3' [H4' [H5' H6']]]]]]. rewrite H1'.
    apply agree_err; try assumption; [heard | unfold CL; rewrite H6'; reflexivity]. }
  destruct A as [s' [H1' [H2' [H3' H4']]]]. rewrite H1'.
  pose proof (pick_sync v cs D d E' s' 0 ltac:(eassumption) ltac:(assumption) H2') as B.
  destruct (pick v cs E' 0) as [[p E''] | [m E'']].
  2: { destruct B as [s'' [B1 [B2 [B3 [B4 [B5 [B6 B7]]]]]]]. rewrite B1.
    assert (CF : CL = false). { unfold CL. rewrite <- andb_assoc, B6, andb_false_r. reflexivity. }
    apply agree_err; try assumption; [destruct H3'; congruence | eapply logged_pre; eassumption]. }
  destruct B as [s'' [B1 [B2 B3]]]. rewrite B1.
  assert (SE : same_exc s s'') by (eapply same_trans; eassumption).
  destruct (match p with Some i => Some i | None => default_of cs 0 end) as [i | ].
  2: { cbn [agree]. split; [exact B2 | apply keepx_same; exact SE]. }
  specialize (IH f D d E'' s'' i ltac:(assumption) B2 ltac:(eapply pre_next with (c1 := true); [exact HP | apply keepx_same; exact SE | unfold CL; bimp])).
  unfold agree in IH. destruct (exec_from f cs i E'') as [[o E3] | ]; destruct (lxf f d cs i s'') as [[lo s3] | ]; try contradiction; [ | exact I].
  assert (CF : calm_cs cs = false -> CL = false) by (unfold CL; intros ->; apply andb_false_r).
  assert (KT : forall s3, keepx (calm_cs cs) s'' s3 -> keepx CL s s3).
  { intros s4 K. eapply keepx_trans; [apply (keepx_same true); exact SE | exact K | auto | unfold CL; bimp]. }
  destruct o as [ | k | k | r | r]; destruct lo; try contradiction; cbn [agree].
  - destruct IH. split; auto.
  - destruct IH as [J1 [J2 [J3 J4]]]. subst l0. rewrite hit_mine. destruct (mine k l) eqn:EM; cbn [agree].
    + split; auto.
    + split; [reflexivity | split; [ | split; auto]]. apply filter_In. split; [exact J2 | ]. cbn [keep]. rewrite EM. reflexivity.
  - destruct IH as [J1 [J2 [J3 J4]]]. split; [exact J1 | split; [ | split; auto]]. apply filter_In. split; [exact J2 | reflexivity].
  - exact IH.
  - destruct IH as [J1 [J2 [J3 [J4 J5]]]]. do 4 (split; [auto | ]). auto.
  - destruct IH as [J1 [J2 [J3 J4]]]. auto.
Qed.

Lemma goods_cons : forall e x cs, good x -> goods cs -> goods (CCons e x cs).
Proof.
  intros e x cs IHx IHc f D d E s i HW HR HP. rewrite lxf_cons, exec_from_cons. rewrite wf_cons in HW. rewrite calm_cons in *. rewrite throwing_cons, returns_cons, escapes_cs_cons. bsplit.
  destruct i as [ | i].
  - specialize (IHx f D d E s ltac:(assumption) HR ltac:(eapply pre_mono; [exact HP | bimp])).
    pose proof (agree_weak D d (calm x) (calm_o e && calm x && calm_cs cs) (calm_o e && calm x && calm_cs cs) (throwing x) (throwing x || throwing_cs cs) (returns x) (returns x || returns_cs cs)
      (escapes x) (escapes x ++ escapes_cs cs) s s _ _ IHx (keepx_refl _ _) ltac:(bimp) ltac:(bimp) ltac:(bimp) ltac:(bimp) ltac:(apply incl_appl, incl_refl)) as IHx'.
    unfold agree in IHx. destruct (exec f x E) as [[o E'] | ]; destruct (lx f d x s) as [[lo s'] | ]; try contradiction; [ | exact IHx'].
    destruct o, lo; try contradiction; try exact IHx'.
    destruct IHx as [HR' HK].
    eapply agree_weak with (c2 := calm x); [eapply IHc; [assumption | exact HR' | ] | exact HK | bimp | bimp | bimp | bimp | apply incl_appr, incl_refl].
    eapply pre_next; [exact HP | exact HK | bimp].
  - eapply agree_weak with (c2 := true); [eapply IHc; [assumption | exact HR | ] | apply keepx_refl | bimp | bimp | bimp | bimp | apply incl_appr, incl_refl].
    eapply pre_mono; [exact HP | bimp].
Qed.

(** ** try *)
Lemma restore_rel : forall X D (E : env) s, rel (X ++ D) E s ->
  rel D (mkenv (globals E) (skipn (length X) (catches E))) (restore s (length D)).
Proof.
  intros X D E s (HG & HF & HN & HD). split; [exact HG | split; [ | split]]; cbn [restore frames catches].
  - assert (LC : length (catches E) = (length X + length D)%nat) by (rewrite <- (map_length fst), HN, app_length; reflexivity).
    rewrite <- HF in *. rewrite rev_length in LC. rewrite skipn_rev. f_equal. f_equal. lia.
  - rewrite <- skipn_map, HN, skipn_app, skipn_all, Nat.sub_diag. reflexivity.
  - apply Forall_forall. intros p Hp. rewrite Forall_forall in HD. apply HD. rewrite <- (firstn_skipn (length X)). apply in_or_app. right. exact Hp.
Qed.
Lemma restore_rel0 : forall D (E : env) s, rel D E s -> rel D E (restore s (length D)).
Proof. intros D E s H. pose proof (restore_rel [] D E s H) as G. cbn [length skipn] in G. destruct E; exact G. Qed.
Lemma restore_rel1 : forall x D (E : env) s, rel (x :: D) E s -> rel D (pop_catch E) (restore s (length D)).
Proof. intros x D E s H. pose proof (restore_rel [x] D E s H) as G. cbn [length] in G. unfold pop_catch. destruct (catches E); exact G. Qed.

Lemma bind_rel : forall D (E : env) s x v, rel D E s -> pend s v -> isundef VS v = false ->
  rel (x :: D) (mkenv (globals E) ((x, v) :: catches E)) (bind_exc s x) /\ calmst (bind_exc s x).
Proof.
  intros D E s x v (HG & HF & HN & HD) HC HV. unfold bind_exc. destruct HC as [[EX EM] | [EX [_ EM]]].
  - rewrite EX, EM. split; [ | split; [exact EX | reflexivity]]. split; [exact HG | split; [ | split]]; cbn [frames catches].
    + rewrite rev_unit, HF. reflexivity.
    + cbn [map fst]. rewrite HN. reflexivity.
    + constructor; assumption.
  - rewrite EX, HV. split; [ | split; [apply isundef_undef | exact EM]]. split; [exact HG | split; [ | split]]; cbn [frames catches].
    + rewrite rev_unit, HF. reflexivity.
    + cbn [map fst]. rewrite HN. reflexivity.
    + constructor; assumption.
Qed.

(* what the try block and its handler together come to, before the finally block *)
Definition handled_ok (D : list nat) (d : list bool) (n : nat) (th rt : bool) (js : list (kind * option nat))
  (r : option (@outcome VS * env)) (l : option (@lout VS * st)) : Prop :=
  match r, l with
  | None, None => True
  | Some (o, E'), Some (lo, s') =>
      match o, lo with
      | Norm, LNorm => rel D E' (restore s' n) /\ calmst s'
      | Brk k, LBrk k' => k = k' /\ In (KBreak, k) js /\ rel D E' (restore s' n) /\ calmst s'
      | Cnt k, LCnt k' => k = k' /\ In (KContinue, k) js /\ rel D E' (restore s' n) /\ calmst s'
      | Ret v, LRet v' => v = v' /\ (forall x, glob s' x = globals E' x) /\ rt = true
      | Thr v, LThr b => rel D E' (restore s' n) /\ told d s' v /\ isundef VS v = false
      | Thr v, LAbort => d = [] /\ (forall x, glob s' x = globals E' x) /\ pend s' v /\ th = true
      | _, _ => False
      end
  | _, _ => False
  end.

Lemma finally_sync : forall g f D d n th rt js r l, n = length D ->
  (forall h, g = Some h -> good h) ->
  (match g with
   | None => true
   | Some h => wf D (true :: d) h && calm h && (match escapes h with [] => true | _ => false end) && negb rt && negb ((match d with [] => true | _ => false end) && th)
   end = true) ->
  handled_ok D d n th rt js r l ->
  forall s, agree D d false (match g with Some h => throwing h | None => false end) (rt || match g with Some h => returns h | None => false end) js s
    (match r with
     | None => None
     | Some (o, E') => match g with None => Some (o, E') | Some h => match exec f h E' with Some (Norm, E'') => Some (o, E'') | r => r end end
     end)
    (match l with
     | None => None
     | Some (LRet v, s') => Some (LRet v, s')
     | Some (LAbort, s') => Some (LAbort, s')
     | Some (o, s') => lfin o s' (match g with None => Some (LNorm, restore s' n) | Some h => lx f (true :: d) h (restore s' n) end)
     end).
Proof.
  intros g f D d n th rt js r l Hn HG HW H s. unfold handled_ok in H.
  destruct r as [[o E'] | ]; destruct l as [[lo s'] | ]; try contradiction; [ | exact I].
  (* return: no finally block *)
  assert (RET : forall v, o = Ret v -> rt = true -> g = None).
  { intros v _ Hrt. destruct g as [h | ]; [ | reflexivity]. rewrite Hrt in HW. cbn [negb] in HW. rewrite ?andb_false_r in HW. cbn [andb] in HW. discriminate. }
  assert (JOIN : forall (olo : @lout VS) (oo : @outcome VS) (E1 : env),
    rel D E' (restore s' n) ->
    (forall E2 s2, rel D E2 s2 -> same_exc s' s2 ->
      agree D d false (match g with Some h => throwing h | None => false end) (rt || match g with Some h => returns h | None => false end) js s
        (Some (oo, E2)) (Some (match olo with LThr _ => LThr false | _ => olo end, s2))) ->
    agree D d false (match g with Some h => throwing h | None => false end) (rt || match g with Some h => returns h | None => false end) js s
      (match g with None => Some (oo, E') | Some h => match exec f h E' with Some (Norm, E'') => Some (oo, E'') | r => r end end)
      (lfin olo s' (match g with None => Some (LNorm, restore s' n) | Some h => lx f (true :: d) h (restore s' n) end))).
  { intros olo oo E1 HR K. destruct g as [h | ].
    - assert (A : agree D (true :: d) true (throwing h) (returns h) [] (restore s' n) (exec f h E') (lx f (true :: d) h (restore s' n))).
      { bsplit. assert (CH : calm h = true) by assumption. destruct (escapes h) eqn:EE; [ | discriminate].
        pose proof (HG h eq_refl f D (true :: d) E' (restore s' n) ltac:(assumption) HR (or_intror CH)) as Q. rewrite CH, EE in Q. exact Q. }
      unfold agree in A. destruct (exec f h E') as [[o2 E2] | ]; destruct (lx f (true :: d) h (restore s' n)) as [[lo2 s2] | ]; try contradiction; [ | exact I].
      destruct o2, lo2; try contradiction; cbn [lfin].
      + destruct A as [A1 [A2 A3]]. apply K; [exact A1 | ]. exact (A3 eq_refl).
      + destruct A as [_ [[] _]].
      + destruct A as [_ [[] _]].
      + cbn [agree]. destruct A as [A1 [A2 A3]]. split; [exact A1 | split; [exact A2 | rewrite A3; apply orb_true_r]].
      + destruct A as [_ [_ [_ [A _]]]]. discriminate.
      + destruct A as [A _]. discriminate.
    - cbn [lfin]. apply K; [exact HR | exact (same_refl s')]. }
  destruct o as [ | k | k | v | v]; destruct lo; try contradiction.
  - destruct H as [H1 H2]. apply (JOIN LNorm Norm E'); [exact H1 | ]. intros E2 s2 K1 K2. cbn [agree]. split; [exact K1 | ]. split; [intros _; eapply calm_same; eassumption | discriminate].
  - destruct H as [H0 [HI [H1 H2]]]. subst l. apply (JOIN (LBrk k) (Brk k) E'); [exact H1 | ]. intros E2 s2 K1 K2. cbn [agree]. split; [reflexivity | split; [exact HI | split; [exact K1 | ]]]. split; [intros _; eapply calm_same; eassumption | discriminate].
  - destruct H as [H0 [HI [H1 H2]]]. subst l. apply (JOIN (LCnt k) (Cnt k) E'); [exact H1 | ]. intros E2 s2 K1 K2. cbn [agree]. split; [reflexivity | split; [exact HI | split; [exact K1 | ]]]. split; [intros _; eapply calm_same; eassumption | discriminate].
  - destruct H as [H0 [H1 H2]]. rewrite (RET v eq_refl H2). cbn [agree]. split; [exact H0 | split; [exact H1 | rewrite H2; reflexivity]].
  - destruct H as [H1 [H2 H3]]. apply (JOIN (LThr byth) (Thr v) E'); [exact H1 | ]. intros E2 s2 K1 K2. cbn [agree].
    split; [exact K1 | split; [ | split; [exact H3 | split; [reflexivity | discriminate]]]]. eapply told_same; eassumption.
  - destruct H as [H1 [H2 [H3 H4]]]. assert (GN : g = None).
    { destruct g as [h | ]; [ | reflexivity]. subst d. rewrite H4 in HW. cbn [andb negb] in HW. rewrite andb_false_r in HW. discriminate. }
    subst g. cbn [agree]. auto.
Qed.

Lemma exec_try : forall f (b : @stmt VS) c g (E : env), exec f (STry b c g) E =
  match (match exec f b E with
        | Some (Thr v, E') =>
            match c with
            | None => Some (Thr v, E')
            | Some (x, h) =>
                match exec f h (mkenv (globals E') ((x, v) :: catches E')) with
                | Some (o, E'') => Some (o, pop_catch E'')
                | None => None
                end
            end
        | r => r
        end) with
      | None => None
      | Some (o, E') =>
          match g with
          | None => Some (o, E')
          | Some h => match exec f h E' with Some (Norm, E'') => Some (o, E'') | r => r end
          end
      end.
Proof. reflexivity. Qed.

Lemma good_try : forall b c g, good b -> (forall x h, c = Some (x, h) -> good h) -> (forall h, g = Some h -> good h) -> good (STry b c g).
Proof.
  intros b c g IHb IHc IHg f D d E s HW HR HP. cbn [wf calm throwing returns escapes] in *. rewrite exec_try, lx_try.
  destruct HP as [HP | HP]; [ | discriminate]. apply andb_true_iff in HW. destruct HW as [HW HWg]. apply andb_true_iff in HW. destruct HW as [HWb HWc].
  set (rt := returns b || match c with Some (_, h) => returns h | None => false end).
  set (th := match c with Some (_, h) => throwing h | None => false end).
  set (js := escapes b ++ match c with Some (_, h) => escapes h | None => [] end).
  assert (HN : length (frames s) = length D).
  { destruct HR as (_ & HF & HM & _). rewrite <- HM, map_length, <- HF, rev_length. reflexivity. }
  rewrite HN.
  eapply agree_weak with (s := s) (c1 := false) (c2 := false) (t1 := match g with Some h => throwing h | None => false end)
    (r1 := rt || match g with Some h => returns h | None => false end) (j1 := js);
    [ | apply keepx_refl | discriminate | discriminate | destruct g; auto | auto | ].
  2: { unfold js. rewrite app_assoc. apply incl_appl, incl_refl. }
  apply finally_sync with (th := th); [reflexivity | exact IHg | | ].
  { destruct g as [h | ]; [ | reflexivity]. unfold rt, th. bsplit.
    repeat match goal with |- _ && _ = true => apply andb_true_intro; split end; try assumption.
    - destruct c as [[x h'] | ]; bsplit; rewrite ?negb_orb, ?orb_false_r; repeat match goal with |- _ && _ = true => apply andb_true_intro; split end; assumption.
    - destruct c as [[x h'] | ]; bsplit; [assumption | rewrite andb_false_r; reflexivity]. }
  specialize (IHb f D (false :: d) E s HWb HR (or_introl HP)). unfold agree in IHb.
  destruct (exec f b E) as [[o E'] | ]; destruct (lx f (false :: d) b s) as [[lo s'] | ]; try contradiction; [ | exact I].
  destruct o as [ | k | k | v | v]; destruct lo; try contradiction; cbn [handled_ok].
  - destruct IHb as [H1 [H2 _]]. split; [apply restore_rel0; exact H1 | auto].
  - destruct IHb as [H0 [HI [H1 [H2 _]]]]. split; [exact H0 | split; [unfold js; apply in_or_app; auto | split; [apply restore_rel0; exact H1 | auto]]].
  - destruct IHb as [H0 [HI [H1 [H2 _]]]]. split; [exact H0 | split; [unfold js; apply in_or_app; auto | split; [apply restore_rel0; exact H1 | auto]]].
  - destruct IHb as [H0 [H1 H2]]. split; [exact H0 | split; [exact H1 | unfold rt; rewrite H2; reflexivity]].
  - destruct IHb as [H1 [[H2 | [H2 _]] [H3 _]]]; [ | destruct d; discriminate H2]. destruct c as [[x h] | ].
    2: { split; [apply restore_rel0; exact H1 | split; [left; exact H2 | exact H3]]. }
    destruct (bind_rel D E' s' x v H1 H2 H3) as [BR BX].
    specialize (IHc x h eq_refl f (x :: D) (true :: d) _ _ HWc BR (or_introl BX)). unfold agree in IHc.
    destruct (exec f h (mkenv (globals E') ((x, v) :: catches E'))) as [[o2 E2] | ]; destruct (lx f (true :: d) h (bind_exc s' x)) as [[lo2 s2] | ]; try contradiction; [ | exact I].
    destruct o2 as [ | k | k | v2 | v2]; destruct lo2; try contradiction; cbn [handled_ok].
    + destruct IHc as [K1 [K2 _]]. split; [eapply restore_rel1; exact K1 | auto].
    + destruct IHc as [K0 [HI [K1 [K2 _]]]]. split; [exact K0 | split; [unfold js; apply in_or_app; auto | split; [eapply restore_rel1; exact K1 | auto]]].
    + destruct IHc as [K0 [HI [K1 [K2 _]]]]. split; [exact K0 | split; [unfold js; apply in_or_app; auto | split; [eapply restore_rel1; exact K1 | auto]]].
    + destruct IHc as [K0 [K1 K2]]. split; [exact K0 | split; [exact K1 | unfold rt; rewrite K2; apply orb_true_r]].
    + destruct IHc as [K1 [K2 [K3 [K4 K5]]]]. assert (K2' : told d s2 v2).
      { destruct K2 as [K2 | [K2 K2']]; [left; exact K2 | ]. destruct d as [ | b' d]; [right; auto | discriminate K2]. }
      destruct (byth0 && match d with [] => true | _ => false end) eqn:EB.
      * apply andb_true_iff in EB. destruct EB as [EB1 EB2]. destruct d; [ | discriminate]. split; [reflexivity | ].
        split; [intros y; apply (proj1 K1) | split; [exact (proj2 (K5 EB1)) | unfold th; exact (proj1 (K5 EB1))]].
      * split; [eapply restore_rel1; exact K1 | auto].
    + destruct IHc as [K1 _]. discriminate.
  - destruct IHb as [K1 _]. discriminate.
Qed.

Theorem sync_s : forall x : @stmt VS, good x.
Proof.
  apply (stmt_both good goods).
  - intros f D d E s HW HR HP. cbn [exec lx agree]. split; [exact HR | apply keepx_refl].
  - intros e f D d E s HW HR HP. cbn [wf calm exec lx] in *. bsplit. pose proof (ok_disc (hold d) D e E s ltac:(assumption) HR) as A.
    destruct (eval e E) as [[v E'] | [m E']].
    + destruct A as [a [s' [L1 [L2 L3]]]]. rewrite L1. cbn [agree]. split; [exact L2 | apply keepx_same; exact L3].
    + destruct A as [s' [L1 [L2 [L3 [L4 [L5 L6]]]]]]. rewrite L1. apply agree_err; solve [assumption | heard].
  - exact good_seq.
  - intros x [e | ] f D d E s HW HR HP; cbn [wf calm calm_o exec lx] in *.
    + bsplit. pose proof (ok_e_agree (hold d) D e E s ltac:(assumption) HR) as A. unfold agree_e in A.
      destruct (eval e E) as [[v E'] | [m E']].
      * destruct A as [a [s' [L1 [L2 [L3 [L4 L5]]]]]]. rewrite L1. cbn [agree]. rewrite (slot_deref _ _ _ _ L3).
        rewrite <- (resolve_rel D _ _ _ _ x HR L2). split.
        { apply wr_set; [exact L2 | ]. intros HM. unfold asg1 in *. rewrite HM in *. cbn [negb orb] in *. auto. }
        { apply keepx_same. eapply same_trans; [exact L4 | apply wr_exc]. }
      * destruct A as [s' [L1 [L2 [L3 [L4 [L5 L6]]]]]]. rewrite L1. apply agree_err; solve [assumption | heard].
    + apply negb_true_iff in HW. cbn [agree]. split; [apply wr_set; [exact HR | rewrite HW; discriminate] | apply keepx_same, wr_exc].
  - exact good_if1.
  - exact good_if.
  - exact good_while.
  - exact good_do.
  - exact good_for.
  - exact good_forin.
  - exact good_switch.
  - intros l f D d E s HW HR HP. cbn [exec lx agree escapes]. split; [reflexivity | split; [left; reflexivity | split; [exact HR | apply keepx_refl]]].
  - intros l f D d E s HW HR HP. cbn [exec lx agree escapes]. split; [reflexivity | split; [left; reflexivity | split; [exact HR | apply keepx_refl]]].
  - intros [e | ] f D d E s HW HR HP; cbn [wf ok_o calm calm_o exec lx] in *.
    + bsplit. pose proof (ok_val (hold d) D e E s ltac:(assumption) HR) as A. unfold val_ok in A. destruct (eval e E) as [[v E'] | [m E']].
      * destruct A as [s' [L1 [L2 [L3 L4]]]]. rewrite L1. cbn [agree returns]. split; [reflexivity | split; [exact (proj1 L2) | reflexivity]].
      * destruct A as [s' [L1 [L2 [L3 [L4 [L5 L6]]]]]]. rewrite L1. apply agree_err; solve [assumption | heard].
    + cbn [agree returns]. split; [reflexivity | split; [exact (proj1 HR) | reflexivity]].
  - intros e f D d E s HW HR HP; cbn [wf calm exec lx] in *. bsplit. destruct HP as [HP | HP]; [ | discriminate].
    pose proof (ok_val (hold d) D e E s ltac:(assumption) HR) as A. unfold val_ok in A. destruct (eval e E) as [[v E'] | [m E']].
    + destruct A as [s' [L1 [L2 [L3 L4]]]]. rewrite L1. cbn [agree throwing]. split; [exact L2 | ].
      assert (DV : isundef VS v = false) by auto. 
      assert (PV : pend (set_exc s' v) v) by (right; cbn [set_exc exc emsg]; split; [reflexivity | split; [exact DV | destruct HP as [_ HPe]; destruct L3 as (_ & H3e & _); congruence]]).
      split; [left; exact PV | auto].
    + destruct A as [s' [L1 [L2 [L3 [L4 [L5 L6]]]]]]. rewrite L1. apply agree_err; try assumption; [heard | reflexivity | left; exact HP].
  - exact good_try.
  - intros f D d E s i HW HR HP. cbn [exec_from lxf agree]. split; [exact HR | apply keepx_refl].
  - exact goods_cons.
Qed.

End Sync8.
