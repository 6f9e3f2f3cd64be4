(** * Histories of scripts *)
Require Import ZArith List Bool Lia.
Import ListNotations.
Require Import Verif.FnModel Verif.FnSpec Verif.FnSpec2 Verif.FnSpec3 Verif.FnProofs Verif.FnProofs2 Verif.FnProofs3 Verif.FnProofs4 Verif.FnProofs5 Verif.FnProofs6 Verif.FnProofs7 Verif.FnProofs8 Verif.FnProofs9 Verif.FnProofs10.
Local Open Scope nat_scope.

Section Hist.
Context {PS : psys}.
Notation V := (value (prim PS)).
Notation vundef := (VPrim (undef PS)).
Notation mem := (@mem PS).
Notation expr := (@expr PS).
Notation exprs := (@exprs PS).
Notation stmt := (@stmt PS).
Notation fundef := (@fundef PS).
Notation ctx := (@ctx PS).
Hypothesis NF : no_forging PS.

Definition top : ctx := mkctx [0] (VObj 0) 1.
Definition res_of (k : @completion PS) : V := match k with Return v => v | Normal => vundef end.

Lemma sim_more n (p : stmt) th (m : mem) : mem_ok m -> clean th 0 ->
  match exec true (call true n) n top p m with
  | Ok k m' => mem_ok m' /\ exists th' j, clean th' 0 /\ run_more j p th m = Done (res_of k) m' th'
  | Err m' => exists j, run_more j p th m = Fail m'
  | Out => forall j, j <= n -> run_more j p th m = NoFuel
  | Unk => True
  end.
Proof.
  intros Hm Hc.
  pose proof (sim_stmt n (sim_calls n) p (mkframe (comp_s p) [] glob (VObj glob) 1) 0%Z [] th m (seg_self _) Hm Hc) as H.
  change (ctx_of (mkframe (comp_s p) [] glob (VObj glob) 1)) with top in H.
  set (g := cf (mkframe (comp_s p) [] glob (VObj glob) 1) 0%Z [] th m) in *.
  destruct (exec true (call true n) n top p m) as [k m'|m'| |]; cbn [post] in *; auto.
  - destruct H as (Hm' & th' & Hk & H). split; [exact Hm'|].
    assert (E : ends g (Done (res_of k) m' th')).
    { destruct k; [|exact H]. eapply via_ends; [exact H|discriminate|]. exists 1.
      unfold rn. cbn [fr ix stk rcvs mm run fcode]. unfold step. cbn [fcode].
      change (0 + zlen (comp_s p))%Z with (zlen (comp_s p)). rewrite fetch_end, Z.leb_refl. reflexivity. }
    destruct E as [j E]. exists th', j. split; [|exact E]. exact (proj2 Hk).
Qed.
(* fuel does not matter *)
Lemma run_more_det n j (p : stmt) th (m : mem) : run_more n p th m <> NoFuel -> run_more j p th m <> NoFuel ->
  run_more n p th m = run_more j p th m.
Proof. intros H1 H2. exact (rn_det n j (cf (mkframe (comp_s p) [] glob (VObj glob) 1) 0%Z [] th m) H1 H2). Qed.

Section FS.
Variable FS : list fundef.
Hypothesis FS_closed : forall f, In f FS -> incl (funs_s (body f)) FS.
Hypothesis FS_plain : forall f, In f FS -> is_arrow f = false.

Record okm (m : mem) (th : nat -> V) : Prop := {
  ok_mem : mem_ok m; ok_th : clean th 0; ok_sane : sane m; ok_gl : gl FS m
}.
Lemma ok_at m th : okm m th -> at_ FS 1 top m.
Proof.
  intros H. split; [|reflexivity]. constructor; [apply H| |now left].
  intros s [<-|[]]. pose proof (sn_base _ (ok_sane _ _ H)). lia.
Qed.
Lemma ok_ctx m th : okm m th -> okctx m top.
Proof.
  intros H. split; [|apply (user0 _ (ok_sane _ _ H))]. split; [|exists []; reflexivity].
  intros s [<-|[]]. left. split; [reflexivity|apply (user0 _ (ok_sane _ _ H))].
Qed.
Lemma more_exec n (p : stmt) th (m : mem) v m' th' : okm m th -> incl (funs_s p) FS ->
  run_more n p th m = Done v m' th' ->
  exists k, exec true (call true n) n top p m = Ok k m' /\ v = res_of k /\ okm m' th' /\ ev m m' /\ okv m' v.
Proof.
  intros HO HF HR. pose proof (sim_more n p th m (ok_mem _ _ HO) (ok_th _ _ HO)) as HS.
  pose proof (ok_at _ _ HO) as HA.
  assert (F : fine True False (exec true (call true n) n top p m)).
  { apply (fine_stmt FS FS_closed True False true n 1); auto.
    intros b r w vs t mm Hg. apply (fine_call FS FS_closed True False (or_intror FS_plain) (or_introl I)); [now left|exact Hg]. }
  pose proof (sv_stmt NF true (call true n) (sv_call NF true n) n p _ _ (ok_sane _ _ HO) (ok_ctx _ _ HO)) as HV.
  destruct (exec true (call true n) n top p m) as [k m1|m1| |] eqn:E.
  - destruct HS as (Hm1 & th1 & j & Hc1 & HS).
    assert (D : run_more n p th m = run_more j p th m) by (apply run_more_det; congruence).
    rewrite HR, HS in D. injection D as -> <- <-. exists k. split; [reflexivity|]. split; [reflexivity|].
    destruct HV as (S1 & E1 & O1). split; [|split; [exact E1|destruct k; [exact I|exact O1]]].
    constructor; auto. destruct (at_s FS FS_closed true n 1 _ _ _ _ _ HA HF E) as [[H _ _] _]. exact H.
  - destruct HS as (j & HS).
    assert (D : run_more n p th m = run_more j p th m) by (apply run_more_det; congruence). congruence.
  - rewrite HS in HR by lia. discriminate.
  - destruct F.
Qed.
Lemma scripts_ev qs m th m' th' : scripts qs m th m' th' -> okm m th -> incl (flat_map funs_s qs) FS ->
  okm m' th' /\ ev m m'.
Proof.
  induction 1 as [m th|q qs n v m th m1 th1 m' th' HR HS IH]; intros HO HF; [split; [exact HO|apply ev_refl]|].
  cbn [flat_map] in HF.
  destruct (more_exec n q th m v m1 th1 HO (fun f H => HF f (in_or_app _ _ _ (or_introl H))) HR) as (k & _ & _ & H1 & E1 & _).
  destruct (IH H1 (fun f H => HF f (in_or_app _ _ _ (or_intror H)))) as [H2 E2].
  split; [exact H2|]. eapply ev_trans; eassumption.
Qed.
End FS.

(* the functions of a list of scripts *)
Lemma flat_closed (qs : list stmt) f : In f (flat_map funs_s qs) -> incl (funs_s (body f)) (flat_map funs_s qs).
Proof.
  intros H f' Hf'. apply in_flat_map in H. destruct H as (q & Hq & H). apply in_flat_map. exists q. split; [exact Hq|].
  exact (funs_s_closed q f H f' Hf').
Qed.
Lemma flat_plain (qs : list stmt) f : forallb no_arrows qs = true -> In f (flat_map funs_s qs) -> is_arrow f = false.
Proof.
  intros H Hf. apply in_flat_map in Hf. destruct Hf as (q & Hq & Hf). rewrite forallb_forall in H.
  specialize (H q Hq). unfold no_arrows in H. rewrite forallb_forall in H. specialize (H f Hf). now apply negb_true_iff.
Qed.
Lemma okm0 FS : okm FS (@mem0 PS) th0.
Proof.
  constructor; [apply mem_ok_mem0|intros j _; eexists; reflexivity|apply sane_mem0|].
  split; [apply wf_mem0|]. split; [exact I|]. intros a f sc (o & Ho & Hf). exfalso.
  unfold obj_at, mem0 in Ho. cbn [objs] in Ho.
  repeat (destruct a as [|a]; [cbn in Ho; injection Ho as <-; discriminate Hf|]; cbn [nth_error] in Ho). destruct a; discriminate Ho.
Qed.
(* reached memory, and whatever scripts come next *)
Lemma reached_more m th qs m' th' : reached m th -> forallb no_arrows qs = true -> scripts qs m th m' th' ->
  exists FS, (forall f, In f FS -> incl (funs_s (body f)) FS) /\ (forall f, In f FS -> is_arrow f = false) /\
    incl (flat_map funs_s qs) FS /\ okm FS m th /\ okm FS m' th' /\ ev m m'.
Proof.
  intros (ps & Hp & HR) Hq HS. exists (flat_map funs_s (ps ++ qs)).
  assert (HF : forallb no_arrows (ps ++ qs) = true) by (rewrite forallb_app; now rewrite Hp, Hq).
  pose proof (flat_closed (ps ++ qs)) as C1. pose proof (fun f => flat_plain (ps ++ qs) f HF) as C2.
  assert (I1 : incl (flat_map funs_s ps) (flat_map funs_s (ps ++ qs))) by (rewrite flat_map_app; apply incl_appl, incl_refl).
  assert (I2 : incl (flat_map funs_s qs) (flat_map funs_s (ps ++ qs))) by (rewrite flat_map_app; apply incl_appr, incl_refl).
  destruct (scripts_ev _ C1 C2 _ _ _ _ _ HR (okm0 _) I1) as [H1 _].
  destruct (scripts_ev _ C1 C2 _ _ _ _ _ HS H1 I2) as [H2 E2]. auto 10.
Qed.
Lemma reached_ok m th : reached m th -> exists FS, okm FS m th.
Proof.
  intros H. destruct (reached_more m th [] m th H eq_refl (scripts_nil _ _)) as (FS & _ & _ & _ & H1 & _). eauto.
Qed.
End Hist.
