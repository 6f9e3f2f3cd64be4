(** * The compiled program does what the specification says: statements, calls, programs *)
Require Import ZArith List Bool Lia.
Import ListNotations.
Require Import Verif.FnModel Verif.FnSpec Verif.FnProofs Verif.FnProofs2 Verif.FnProofs3.
Local Open Scope nat_scope.

Section Sim.
Context {PS : psys}.
Notation V := (value (prim PS)).
Notation vundef := (VPrim (undef PS)).
Notation mem := (@mem PS).
Notation code := (list (@instr PS)).
Notation slot := (@slot PS).
Notation expr := (@expr PS).
Notation exprs := (@exprs PS).
Notation items := (@items PS).
Notation stmt := (@stmt PS).
Notation fundef := (@fundef PS).
Notation operand := (@operand PS).
Notation res := (@res PS).
Notation frame := (@frame PS).
Notation completion := (@completion PS).

Ltac unrun := unfold rn; cbn [fr ix stk rcvs mm run]; unfold step.
Ltac fet := repeat match goal with H : fetch _ _ = Some _ |- _ => rewrite H end.
Ltac segs := repeat match goal with
  | H : seg _ _ (_ ++ _) |- _ => apply seg_app in H; destruct H
  | H : seg _ _ (_ :: _) |- _ => apply seg_cons in H; destruct H
  end.
Ltac zl := rewrite ?zlen_app, ?zlen_cons, ?zlen_app, ?zlen_cons, ?zlen_app, ?zlen_cons, ?zlen_nil; lia.
Ltac one := intros j; unrun; fet.
Ltac same := match goal with |- run ?a _ _ _ _ _ ?i _ _ _ = run ?a _ _ _ _ _ ?j _ _ _ =>
   let H := fresh in assert (H : i = j) by zl; first [reflexivity | rewrite H; reflexivity] end.

Definition lands_s (F : frame) (i' : Z) (s : list slot) (th0 : nat -> V) (g : cfg) (k : completion) (m : mem) : Prop :=
  mem_ok m /\ exists th', keeps th0 th' (length s) /\
  match k with Normal => via 0 g (cf F i' s th' m) | Return v => ends g (Done v m th') end.
Lemma lands_s_closed F i' s th0 : closed (lands_s F i' s th0).
Proof.
  intros g g' k m Hv [Hm (th' & Hk & Hg)]. split; [assumption|]. exists th'. split; [assumption|].
  destruct k; [now apply via0_trans with g'|]. apply via_ends with (p := 0) (b := g'); auto. discriminate.
Qed.
Definition lands_t (F : frame) (i1 i2 : Z) (s : list slot) (th0 : nat -> V) (g : cfg) (b : bool) (m : mem) : Prop :=
  mem_ok m /\ exists th', keeps th0 th' (length s) /\ via 1 g (cf F (if b then i1 else i2) s th' m).

Lemma post_le {A} n k g (r : res A) K : post n g r K -> k <= n -> post k g r K.
Proof. destruct r; cbn; auto. intros H Hk. now apply starves_le with n. Qed.
Lemma post_plus {A} k g g' (r : res A) K : closed K -> via 1 g g' -> post k g' r K -> post (S k) g r K.
Proof.
  intros HK Hv. destruct r as [a m|m| |]; cbn; auto.
  - apply HK. now apply via_weak with 1.
  - apply via_ends with (p := 1); [assumption|discriminate].
  - now apply (via_starves 1).
Qed.
Lemma post_imp {A} n g (r : res A) (K K' : cfg -> A -> mem -> Prop) :
  post n g r K -> (forall a m, K g a m -> K' g a m) -> post n g r K'.
Proof. destruct r; cbn; auto. Qed.
Lemma lands_s_keeps F i' s th0 th1 g k m : keeps th0 th1 (length s) -> lands_s F i' s th1 g k m -> lands_s F i' s th0 g k m.
Proof. intros H (Hm & th' & Hk & Hg). split; [assumption|]. exists th'. split; [now apply keeps_trans with th1|assumption]. Qed.
Lemma lands_s_at F i i' s th0 g k (m : mem) : i = i' -> lands_s F i s th0 g k m -> lands_s F i' s th0 g k m.
Proof. now intros ->. Qed.

Section Fixed.
Variable n : nat.
Notation callf := (call true n).
Hypothesis Hcall : sim_call (PS := PS) n.

Lemma sim_test e F i s th (m : mem) off :
  seg (fcode F) i (comp_e e) -> fetch (fcode F) (i + zlen (comp_e e))%Z = Some (IJfalse off) ->
  mem_ok m -> clean th (length s) ->
  post n (cf F i s th m) (test true callf (ctx_of F) e m)
    (lands_t F (i + zlen (comp_e e) + 1)%Z (i + zlen (comp_e e) + off)%Z s th).
Proof.
  intros Hs Hf Hm Hc. unfold test.
  pose proof (sim_expr n Hcall e F i s th m Hs Hm Hc) as H.
  destruct (eval true callf (ctx_of F) e m) as [o m1|m1| |]; cbn [FnSpec.bind]; try exact H.
  destruct H as (Hm1 & th1 & Hk & Hv). split; [assumption|]. exists th1. split; [assumption|].
  apply (via_trans 0 1) with (cf F (i + zlen (comp_e e))%Z (slot_of o :: s) th1 m1); [assumption|].
  apply via_one. one. rewrite deref_slot. destruct (truth PS (val m1 o)); same.
Qed.

Definition sim_s (st : stmt) : Prop := forall F i s th (m : mem),
  seg (fcode F) i (comp_s st) -> mem_ok m -> clean th (length s) ->
  post n (cf F i s th m) (exec true callf n (ctx_of F) st m)
       (lands_s F (i + zlen (comp_s st))%Z s th).

Lemma post_done_s k g F i' s th0 (m : mem) th :
  (forall j, rn (S j) g = rn j (cf F i' s th m)) -> mem_ok m -> keeps th0 th (length s) ->
  post k g (Ok Normal m) (lands_s F i' s th0).
Proof.
  intros H Hm Hk. split; [assumption|]. exists th. split; [assumption|]. now apply via_weak with 1, via_one.
Qed.

Lemma sim_loop c a F i s (IH : sim_s a) :
  seg (fcode F) i (comp_s (SWhile c a)) ->
  forall k th (m : mem), k <= n -> mem_ok m -> clean th (length s) ->
  post k (cf F i s th m) (loop k (test true callf (ctx_of F) c) (exec true callf n (ctx_of F) a) m)
       (lands_s F (i + zlen (comp_s (SWhile c a)))%Z s th).
Proof.
  intros Hs. cbn [comp_s] in *. segs. induction k as [|k IHk]; intros th m Hk Hm Hc.
  - intros j Hj. replace j with 0 by lia. reflexivity.
  - cbn [loop].
    assert (HT := sim_test c F i s th m _ H H0 Hm Hc).
    destruct (test true callf (ctx_of F) c m) as [b m1|m1| |]; cbn [FnSpec.bind]; auto.
    2:{ apply starves_le with n; assumption. }
    destruct HT as (Hm1 & th1 & Hk1 & Hv1). pose proof (keeps_clean _ _ _ Hk1) as Hc1.
    destruct b.
    + eapply post_plus; [apply lands_s_closed|exact Hv1|].
      assert (HB := IH F (i + zlen (comp_e c) + 1)%Z s th1 m1 H1 Hm1 Hc1).
      destruct (exec true callf n (ctx_of F) a m1) as [r m2|m2| |]; cbn [FnSpec.bind]; auto.
      2:{ apply starves_le with n; [assumption|lia]. }
      destruct HB as (Hm2 & th2 & Hk2 & Hv2). destruct r.
      * eapply post_via; [apply lands_s_closed|exact Hv2|].
        apply post_via with (cf F i s th2 m2); [apply lands_s_closed| |].
        { apply via_weak with 1, via_one. one. same. }
        eapply post_imp; [apply IHk; auto; [lia|now apply keeps_clean in Hk2]|].
        intros r m3. apply lands_s_keeps. now apply keeps_trans with th1.
      * split; [assumption|]. exists th2. split; [now apply keeps_trans with th1|assumption].
    + split; [assumption|]. exists th1. split; [assumption|]. apply via_weak with 1.
      match goal with |- via _ _ (cf _ ?u _ _ _) => replace u with (i + zlen (comp_e c) + (zlen (comp_s a) + 2))%Z by zl end.
      exact Hv1.
Qed.

Lemma sim_stmt : forall st, sim_s st.
Proof.
  apply (stmt_mut PS (fun _ => True) (fun _ => True) (fun _ => True) sim_s (fun _ => True)); auto.
  - (* SSkip *) intros F i s th m Hs Hm Hc. cbn [comp_s exec] in *. segs.
    apply post_done_s with th; auto; [|now apply keeps_refl]. one. same.
  - (* SExpr *) intros e _ F i s th m Hs Hm Hc. cbn [comp_s exec] in *. segs.
    eapply post_eval; [apply sim_expr; eauto|apply lands_s_closed|]. intros o m1 th1 Hm1 Hk1.
    apply post_done_s with th1; auto. one. same.
  - (* SSeq *) intros a IHa b IHb F i s th m Hs Hm Hc. cbn [comp_s exec] in *. segs.
    assert (HA := IHa F i s th m H Hm Hc).
    destruct (exec true callf n (ctx_of F) a m) as [r m1|m1| |]; cbn [FnSpec.bind]; auto.
    destruct HA as (Hm1 & th1 & Hk1 & Hv1). destruct r.
    + eapply post_via; [apply lands_s_closed|exact Hv1|].
      eapply post_imp; [apply IHb; eauto using keeps_clean|].
      intros r m2 HL. eapply lands_s_at; [|eapply lands_s_keeps; eassumption]. zl.
    + split; [assumption|]. now exists th1.
  - (* SVar *) intros x e _ F i s th m Hs Hm Hc. cbn [comp_s exec] in *. segs.
    destruct (resolve m (env (ctx_of F)) x) as [c m1] eqn:E.
    assert (Hm1 : mem_ok m1) by (pose proof (resolve_ok m (env (ctx_of F)) x Hm) as Q; now rewrite E in Q).
    apply post_step with (cf F (i + 1)%Z (SRef c :: s) th m1); [|apply lands_s_closed|].
    { one. rewrite push_var_ctx, E by assumption. reflexivity. }
    eapply post_eval; [apply sim_expr; eauto using clean_le|apply lands_s_closed|].
    intros o m2 th2 Hm2 Hk2. cbn [length] in Hk2.
    apply post_step with (cf F (i + 1 + zlen (comp_e e) + 1)%Z (SRef c :: s) th2 (writec m2 c (val m2 o))); [|apply lands_s_closed|].
    { one. rewrite deref_slot, writec_set. same. }
    apply post_done_s with th2; [|assumption|now apply keeps_up]. one. same.
  - (* SDecl *) intros x F i s th m Hs Hm Hc. cbn [comp_s exec] in *. segs.
    destruct (resolve m (env (ctx_of F)) x) as [c m1] eqn:E.
    assert (Hm1 : mem_ok m1) by (pose proof (resolve_ok m (env (ctx_of F)) x Hm) as Q; now rewrite E in Q).
    apply post_step with (cf F (i + 1)%Z (SRef c :: s) th m1); [|apply lands_s_closed|].
    { one. rewrite push_var_ctx, E by assumption. reflexivity. }
    apply post_step with (cf F (i + 1 + 1)%Z (SVal vundef :: SRef c :: s) th m1); [|apply lands_s_closed|].
    { one. same. }
    apply post_step with (cf F (i + 1 + 1 + 1)%Z (SRef c :: s) th (writec m1 c vundef)); [|apply lands_s_closed|].
    { one. rewrite writec_set. same. }
    apply post_done_s with th; auto; [|now apply keeps_refl]. one. same.
  - (* SFun *) intros x f _ F i s th m Hs Hm Hc. cbn [comp_s exec] in *. segs.
    destruct (resolve m (env (ctx_of F)) x) as [c m1] eqn:E.
    assert (Hm1 : mem_ok m1) by (pose proof (resolve_ok m (env (ctx_of F)) x Hm) as Q; now rewrite E in Q).
    destruct (closure m1 (env (ctx_of F)) f) as [v m2] eqn:E2.
    assert (Hm2 : mem_ok m2) by (pose proof (closure_ok m1 (env (ctx_of F)) f Hm1) as Q; now rewrite E2 in Q).
    apply post_step with (cf F (i + 1)%Z (SRef c :: s) th m1); [|apply lands_s_closed|].
    { one. rewrite push_var_ctx, E by assumption. reflexivity. }
    apply post_step with (cf F (i + 1 + 1)%Z (SVal v :: SRef c :: s) th m2); [|apply lands_s_closed|].
    { one. rewrite push_func_ctx, E2. same. }
    apply post_step with (cf F (i + 1 + 1 + 1)%Z (SRef c :: s) th (writec m2 c v)); [|apply lands_s_closed|].
    { one. rewrite writec_set. same. }
    apply post_done_s with th; auto; [|now apply keeps_refl]. one. same.
  - (* SIf *) intros c _ a IHa F i s th m Hs Hm Hc. cbn [comp_s exec] in *. segs.
    eapply post_bind; [eapply sim_test; eauto|]. intros b m1 (Hm1 & th1 & Hk1 & Hv1). apply via_weak in Hv1.
    destruct b.
    + eapply post_via; [apply lands_s_closed|exact Hv1|].
      eapply post_imp; [apply IHa; eauto using keeps_clean|].
      intros r m2 HL. eapply lands_s_at; [|eapply lands_s_keeps; eassumption]. zl.
    + split; [assumption|]. exists th1. split; [assumption|].
      match goal with |- via _ _ (cf _ ?u _ _ _) => match type of Hv1 with via _ _ (cf _ ?w _ _ _) => replace u with w by zl end end.
      exact Hv1.
  - (* SIfElse *) intros c _ a IHa b IHb F i s th m Hs Hm Hc. cbn [comp_s exec] in *. segs.
    eapply post_bind; [eapply sim_test; eauto|]. intros t m1 (Hm1 & th1 & Hk1 & Hv1). apply via_weak in Hv1.
    destruct t.
    + eapply post_via; [apply lands_s_closed|exact Hv1|].
      eapply post_imp; [apply IHa; eauto using keeps_clean|].
      intros r m2 (Hm2 & th2 & Hk2 & Hv2). split; [assumption|]. exists th2. split; [now apply keeps_trans with th1|].
      destruct r; [|assumption]. eapply via0_trans; [exact Hv2|].
      apply via_weak with 1, via_one. one. same.
    + eapply post_via; [apply lands_s_closed|exact Hv1|].
      eapply post_imp; [apply IHb; eauto using keeps_clean|].
      { match goal with H : seg _ ?u (comp_s b) |- seg _ ?w (comp_s b) => replace w with u by zl; exact H end. }
      intros r m2 HL. eapply lands_s_at; [|eapply lands_s_keeps; eassumption]. zl.
  - (* SWhile *) intros c _ a IHa F i s th m Hs Hm Hc. cbn [exec]. apply sim_loop; auto.
  - (* SReturn *) intros e _ F i s th m Hs Hm Hc. cbn [comp_s exec] in *. segs.
    eapply post_eval; [apply sim_expr; eauto|apply lands_s_closed|]. intros o m1 th1 Hm1 Hk1.
    split; [assumption|]. exists th1. split; [assumption|]. exists 1. unrun. fet. now rewrite deref_slot.
  - (* SRet *) intros F i s th m Hs Hm Hc. cbn [comp_s exec] in *. segs.
    split; [assumption|]. exists th. split; [now apply keeps_refl|]. exists 1. unrun. fet. reflexivity.
Qed.
End Fixed.

(** ** Calls *)
Lemma firstn_rev_app {A} (l : list A) x r : firstn (length l) (rev l ++ x :: r) = rev l.
Proof. rewrite <- (rev_length l). rewrite firstn_app, Nat.sub_diag, firstn_all. apply app_nil_r. Qed.
Lemma skipn_rev_app {A} (l : list A) x r : skipn (S (length l)) (rev l ++ x :: r) = r.
Proof.
  rewrite <- (rev_length l). change (x :: r) with ([x] ++ r). rewrite app_assoc.
  replace (S (length (rev l))) with (length (rev l ++ [x])) by (rewrite app_length; cbn; lia).
  rewrite skipn_app, Nat.sub_diag, skipn_all. reflexivity.
Qed.
Lemma nth_rev_app {A} (l : list A) x r d : nth (length l) (rev l ++ x :: r) d = x.
Proof. rewrite <- (rev_length l). now rewrite app_nth2, Nat.sub_diag by lia. Qed.

Definition new_result (isnew : bool) (t v : V) : V :=
  match v with VObj _ => v | VPrim _ => if isnew then t else v end.

Lemma call_unfold F i (args : list slot) callee r th (m : mem) (isnew : bool) :
  fetch (fcode F) i = Some (if isnew then INewFcall (length args) else IFcall (length args)) ->
  forall j, rn (S j) (cf F i (rev args ++ callee :: r) th m) =
  match enter isnew m th (length r) (fthis F) (deref m callee) (map (deref m) args) with
  | EnterFail m' => Fail m'
  | EnterOpen => Open
  | Enter f sc sa t m' th' =>
      if too_deep (PS := PS) (S (fdep F)) then Fail m' else
      match rn j (cf (mkframe (comp_s (body f)) sc sa t (S (fdep F))) 0%Z (rev args ++ callee :: r) th' m') with
      | Done v m2 th2 => rn j (cf F (i + 1)%Z (SVal (new_result isnew t v) :: r) th2 m2)
      | o => o
      end
  end.
Proof.
  intros Hf j. unfold rn. cbn [fr ix stk rcvs mm run fcode fscope fcur fthis fdep]. unfold step. rewrite Hf.
  assert (Hl : (length (rev args ++ callee :: r) <? S (length args)) = false).
  { apply Nat.ltb_ge. rewrite app_length, rev_length. cbn [length]. lia. }
  destruct isnew; rewrite Hl, firstn_rev_app, skipn_rev_app, nth_rev_app, map_rev, rev_involutive; reflexivity.
Qed.

(* entering a function, in terms of the specification *)
Lemma enter_spec (isnew : bool) (m : mem) th idx this callee vs : mem_ok m ->
  enter isnew m th idx this callee vs =
  let m1 := add_obj (add_cells m vs) (mkobj [] None None) in
  match callee with
  | VPrim _ => EnterFail m1
  | VObj a =>
      match obj_at m1 a with
      | Some (mkobj _ _ (Some (f, sc))) =>
          if is_arrow f && isnew then EnterOpen else
          let t1 := if is_arrow f then this else match th idx with VObj _ => th idx | VPrim _ => VObj glob end in
          let th1 := if is_arrow f then th else match th idx with VObj _ => set_th th idx vundef | VPrim _ => th end in
          let m2 := if isnew then add_obj m1 (mkobj [] (Some (proto_for m1 a)) None) else m1 in
          let m3 := with_params m2 (length (cells m)) (length (objs m)) f vs in
          if args_bad PS (params f) vs then EnterFail m3
          else Enter f sc (length (objs m)) (if isnew then VObj (length (objs m1)) else t1)
                     (with_locals m3 (length (objs m)) f) th1
      | _ => EnterFail m1
      end
  end.
Proof.
  intros Hm. unfold enter. rewrite new_cells_add. unfold new_obj. cbn [cells objs add_cells].
  change (mkmem (cells m ++ vs) (objs m ++ [mkobj [] None None])) with (add_obj (add_cells m vs) (mkobj [] None None)).
  set (m1 := add_obj (add_cells m vs) (mkobj [] None None)). cbn zeta.
  assert (Hm1 : mem_ok m1) by (apply mem_ok_add_obj; [exact Hm|exact I]).
  destruct callee as [p|a]; [reflexivity|].
  rewrite <- (obj_at_get m1 a). destruct (obj_at m1 a) as [[pr po [[f sc]|]]|] eqn:EO; cbn [fn]; try reflexivity.
  destruct (is_arrow f && isnew); [reflexivity|].
  assert (Hlen : length (objs m1) = S (length (objs m))) by (unfold m1; cbn [add_obj objs add_cells]; rewrite app_length; cbn; lia).
  assert (Hcl : length (cells m1) = length (cells m) + length vs) by (unfold m1; cbn [add_obj cells add_cells]; apply app_length).
  assert (Hsa : getobj m1 (length (objs m)) = mkobj [] None None).
  { unfold getobj, m1. cbn [add_obj objs add_cells]. rewrite app_nth2, Nat.sub_diag by lia. reflexivity. }
  assert (HB : forall m2, mem_ok m2 -> length (objs m) < length (objs m2) -> getobj m2 (length (objs m)) = mkobj [] None None ->
           length (cells m2) = length (cells m1) ->
           bind_params m2 (length (objs m)) (params f) (seq (length (cells m)) (length vs)) =
           with_params m2 (length (cells m)) (length (objs m)) f vs).
  { intros m2 H2 Hl Hg Hc. apply bind_params_with; auto. lia. }
  destruct isnew.
  - unfold new_this, new_obj.
    assert (Hp : match own m1 a prototype with
            | Some c => match cell m1 c with VObj p => p | VPrim _ => object_proto end
            | None => object_proto end = proto_for m1 a).
    { unfold proto_for. rewrite own_own_cell. destruct (own_cell m1 a prototype); [now rewrite readc_cell|reflexivity]. }
    rewrite Hp. fold (add_obj m1 (mkobj [] (Some (proto_for m1 a)) None)).
    set (m2 := add_obj m1 (mkobj [] (Some (proto_for m1 a)) None)).
    assert (Hm2 : mem_ok m2) by (apply mem_ok_add_obj; [exact Hm1|exact I]).
    rewrite (HB m2 Hm2); [|unfold m2; cbn [add_obj objs]; rewrite app_length; lia| |reflexivity].
    2:{ unfold getobj, m2. cbn [add_obj objs]. rewrite app_nth1 by lia. exact Hsa. }
    destruct (is_arrow f); [|destruct (th idx)]; destruct (args_bad PS (params f) vs); try reflexivity;
      rewrite locals_fun_locals; rewrite bind_locals_fold by (apply with_params_ok, Hm2); reflexivity.
  - rewrite (HB m1 Hm1); [|lia|exact Hsa|reflexivity].
    destruct (is_arrow f); [|destruct (th idx)]; destruct (args_bad PS (params f) vs); try reflexivity;
      rewrite locals_fun_locals; rewrite bind_locals_fold by (apply with_params_ok, Hm1); reflexivity.
Qed.

Lemma sim_call_0 : sim_call (PS := PS) 0.
Proof.
  intros F i args callee r th m isnew rcv Hf Hm Hc Hr. cbn [call]. intros j Hj. replace j with 0 by lia. reflexivity.
Qed.

Lemma sim_call_S n : sim_call (PS := PS) n -> sim_call (PS := PS) (S n).
Proof.
  intros IH F i args callee r th m isnew rcv Hf Hm Hc Hr.
  pose proof (call_unfold F i args callee r th m isnew Hf) as HU. rewrite (enter_spec _ _ _ _ _ _ _ Hm) in HU.
  cbn zeta in HU. cbn [call].
  set (vs := map (deref m) args) in *.
  set (m1 := add_obj (add_cells m vs) (mkobj [] None None)) in *.
  assert (Hm1 : mem_ok m1) by (apply mem_ok_add_obj; [exact Hm|exact I]).
  destruct (deref m callee) as [p|a]; [exists 1; apply HU|].
  destruct (obj_at m1 a) as [[pr po [[f sc]|]]|]; try (exists 1; apply HU).
  destruct (is_arrow f && (isnew || match rcv with Some _ => true | None => false end)) eqn:EA; [exact I|].
  assert (EA2 : is_arrow f && isnew = false) by (destruct (is_arrow f), isnew; auto).
  rewrite EA2 in HU.
  set (m2 := if isnew then add_obj m1 (mkobj [] (Some (proto_for m1 a)) None) else m1) in *.
  assert (Hm2 : mem_ok m2) by (unfold m2; destruct isnew; [apply mem_ok_add_obj; [exact Hm1|exact I]|exact Hm1]).
  set (m3 := with_params m2 (length (cells m)) (length (objs m)) f vs) in *.
  assert (Hm3 : mem_ok m3) by (apply with_params_ok, Hm2).
  destruct (args_bad PS (params f) vs); [exists 1; apply HU|].
  set (m4 := with_locals m3 (length (objs m)) f) in *.
  assert (Hm4 : mem_ok m4) by (apply with_locals_ok, Hm3).
  set (t := if is_arrow f then fthis F else if isnew then VObj (length (objs m1)) else match rcv with Some r0 => r0 | None => VObj glob end) in *.
  set (th1 := if is_arrow f then th else match th (length r) with VObj _ => set_th th (length r) vundef | VPrim _ => th end) in *.
  assert (Ht : (if isnew then VObj (length (objs m1)) else if is_arrow f then fthis F else match th (length r) with VObj _ => th (length r) | VPrim _ => VObj glob end) = t).
  { unfold t. destruct isnew; destruct (is_arrow f); try discriminate EA2; try reflexivity.
    destruct rcv as [v|]; [destruct Hr as [-> [b ->]]|destruct Hr as [q ->]]; reflexivity. }
  rewrite Ht in HU.
  assert (Hth : keeps th th1 (length r)).
  { split.
    - intros j Hj. unfold th1. destruct (is_arrow f); [reflexivity|]. destruct (th (length r)); [reflexivity|].
      unfold set_th. destruct (Nat.eqb_spec j (length r)); [lia|reflexivity].
    - intros j Hj. destruct (Nat.eq_dec j (length r)) as [->|Hn].
      + unfold th1. destruct (is_arrow f) eqn:Ef.
        * destruct isnew; [discriminate EA2|]. destruct rcv; [discriminate EA|]. exact Hr.
        * destruct (th (length r)) eqn:Et; [eauto|]. unfold set_th. rewrite Nat.eqb_refl. eauto.
      + unfold th1. destruct (is_arrow f); [apply Hc; lia|]. destruct (th (length r)); [apply Hc; lia|].
        unfold set_th. destruct (Nat.eqb_spec j (length r)); [eauto|apply Hc; lia]. }
  unfold too_deep in HU.
  assert (Hd : match max_depth PS with Some n0 => (0 <? n0) && (n0 <? S (fdep F)) | None => false end =
               match max_depth PS with Some k => (0 <? k) && (k <=? fdep F) | None => false end).
  { destruct (max_depth PS); [|reflexivity]. f_equal. }
  rewrite Hd in HU.
  destruct (match max_depth PS with Some k => (0 <? k) && (k <=? fdep F) | None => false end); [exists 1; apply HU|].
  set (F' := mkframe (comp_s (body f)) sc (length (objs m)) t (S (fdep F))) in *.
  set (st := rev args ++ callee :: r) in *.
  assert (Hst : length r <= length st) by (unfold st; rewrite app_length; cbn [length]; lia).
  pose proof (sim_stmt n IH (body f) F' 0%Z st th1 m4 (seg_self _) Hm4) as HB.
  assert (Hcl : clean th1 (length st)) by (eapply clean_le; [eapply keeps_clean, Hth|exact Hst]).
  specialize (HB Hcl).
  change (ctx_of F') with (mkctx (length (objs m) :: rev sc) t (S (fdep F))) in HB.
  destruct (exec true (call true n) n (mkctx (length (objs m) :: rev sc) t (S (fdep F))) (body f) m4) as [k m5|m5| |];
    cbn [FnSpec.bind]; cbn [post] in HB.
  - destruct HB as (Hm5 & th5 & Hk5 & HE).
    set (v := match k with Return v => v | Normal => vundef end).
    assert (HE2 : ends (cf F' 0%Z st th1 m4) (Done v m5 th5)).
    { unfold v. destruct k; [|exact HE]. eapply via_ends; [exact HE|discriminate|]. exists 1.
      unfold rn. cbn [fr ix stk rcvs mm run fcode]. unfold step. unfold F'. cbn [fcode].
      change (0 + zlen (comp_s (body f)))%Z with (zlen (comp_s (body f))). rewrite fetch_end, Z.leb_refl. reflexivity. }
    split; [assumption|]. exists th5. split.
    + apply keeps_trans with th1; [assumption|]. apply keeps_le with (length st); auto.
      intros j Hj. apply (proj2 Hth). lia.
    + apply via_weak with 1.
      assert (Hres : new_result isnew t v = (if isnew then match v with VObj _ => v | VPrim _ => t end else v)).
      { unfold new_result. destruct isnew, v; reflexivity. }
      rewrite Hres in HU || (rewrite <- Hres).
      destruct HE2 as [kc HE2]. split.
      * intros j Hj. cbn [Nat.add] in *. rewrite HU in Hj |- *.
        destruct (rn j (cf F' 0%Z st th1 m4)) eqn:EJ; [| | contradiction Hj; reflexivity|];
          assert (EQ : rn j (cf F' 0%Z st th1 m4) = rn kc (cf F' 0%Z st th1 m4)) by (apply rn_det; congruence);
          rewrite EJ, HE2 in EQ; try discriminate EQ; injection EQ as -> -> ->; reflexivity.
      * exists (S kc). intros j Hj. cbn [Nat.add]. rewrite HU.
        rewrite Nat.add_comm, rn_mono by congruence. rewrite HE2. rewrite (Nat.add_comm j kc). now apply rn_mono.
  - destruct HB as [k HB]. exists (S k). rewrite HU, HB. reflexivity.
  - intros j Hj. destruct j as [|j]; [reflexivity|]. rewrite HU, HB by lia. reflexivity.
  - exact I.
Qed.
Theorem sim_calls n : sim_call (PS := PS) n.
Proof. induction n; [apply sim_call_0|now apply sim_call_S]. Qed.

(** ** Programs *)
Definition start (p : stmt) : cfg := cf (mkframe (comp_s p) [] glob (VObj glob) 1) 0%Z [] (fun _ => vundef) mem0.
Lemma run_program_start n p : run_program n p = rn n (start p).
Proof. reflexivity. Qed.

Lemma sim_program n p :
  match program true n p with
  | Ok v m => exists th, ends (start p) (Done v m th)
  | Err m => ends (start p) (Fail m)
  | Out => starves n (start p)
  | Unk => True
  end.
Proof.
  unfold program.
  pose proof (sim_stmt n (sim_calls n) p (mkframe (comp_s p) [] glob (VObj glob) 1) 0%Z [] (fun _ => vundef) mem0
                (seg_self _) mem_ok_mem0) as H.
  assert (Hc : clean (PS := PS) (fun _ => vundef) (length (@nil slot))) by (intros j _; eauto).
  specialize (H Hc). fold (start p) in H.
  change (ctx_of (mkframe (comp_s p) [] glob (VObj glob) 1)) with (mkctx (PS := PS) [0] (VObj 0) 1) in H.
  destruct (exec true (call true n) n (mkctx [0] (VObj 0) 1) p mem0) as [k m|m| |]; cbn [FnSpec.bind post] in *; auto.
  destruct H as (_ & th & _ & H). exists th. destruct k; [|exact H].
  eapply via_ends; [exact H|discriminate|]. exists 1.
  unfold rn. cbn [fr ix stk rcvs mm run fcode]. unfold step. cbn [fcode].
  change (0 + zlen (comp_s p))%Z with (zlen (comp_s p)). rewrite fetch_end, Z.leb_refl. reflexivity.
Qed.
End Sim.
