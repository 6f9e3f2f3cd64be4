(** * Programs that stay within the specification; programs that always end *)
Require Import ZArith List Bool Lia.
Import ListNotations.
Require Import Verif.FnModel Verif.FnSpec Verif.FnSpec2 Verif.FnProofs Verif.FnProofs2 Verif.FnProofs3 Verif.FnProofs5 Verif.FnProofs6 Verif.FnProofs7 Verif.FnProofs8.
Local Open Scope nat_scope.

Section Fine.
Context {PS : psys}.
Notation V := (value (prim PS)).
Notation vundef := (VPrim (undef PS)).
Notation mem := (@mem PS).
Notation expr := (@expr PS).
Notation exprs := (@exprs PS).
Notation items := (@items PS).
Notation stmt := (@stmt PS).
Notation fundef := (@fundef PS).
Notation operand := (@operand PS).
Notation res := (@res PS).
Notation ctx := (@ctx PS).

Variable FS : list fundef.
Hypothesis FS_closed : forall f, In f FS -> incl (funs_s (body f)) FS.
(* may a run need more fuel; may it leave the specification? *)
Variables bo bu : Prop.
Definition fine {A} (r : res A) : Prop := match r with Out => bo | Unk => bu | _ => True end.
Lemma fine_bind {A B} (r : res A) (k : A -> mem -> res B) :
  fine r -> (forall a m, r = Ok a m -> fine (k a m)) -> fine (FnSpec.bind r k).
Proof. destruct r; cbn; auto. Qed.

Section Body.
Variable late : bool.
Variable n : nat.
Variable d : nat.
Hypothesis Hcall : forall b r v vs t m, gl FS m -> fine (call late n b r v vs t d m).
Definition at_ (c : ctx) (m : mem) : Prop := act FS c [] [] m /\ depth c = d.
Definition sub (fs : list fundef) : Prop := incl fs FS.
Lemma sub_ok fs : sub fs -> ok_funs FS [] [] fs.
Proof. intros H. split; [exact H|now left]. Qed.
Ltac sb := match goal with HF : sub _ |- sub _ => let a := fresh in let H := fresh in intros a H; apply HF;
  first [ exact (in_or_app _ _ a (or_introl H)) | exact (in_or_app _ _ a (or_intror H))
        | exact (in_or_app _ _ a (or_intror (in_or_app _ _ a (or_introl H))))
        | exact (in_or_app _ _ a (or_intror (in_or_app _ _ a (or_intror H)))) ] end.
Lemma at_e c e m o m' : at_ c m -> sub (funs_e e) -> eval late (call late n) c e m = Ok o m' -> at_ c m'.
Proof. intros [H Hd] HF E. split; [|exact Hd]. exact (proj1 (keep_e FS FS_closed n late c [] [] m e o m' H (sub_ok _ HF) E)). Qed.
Lemma at_es c e m o m' : at_ c m -> sub (funs_es e) -> evals late (call late n) c e m = Ok o m' -> at_ c m'.
Proof. intros [H Hd] HF E. split; [|exact Hd]. exact (proj1 (keep_es FS FS_closed n late c [] [] m e o m' H (sub_ok _ HF) E)). Qed.
Lemma at_is c e m o m' : at_ c m -> sub (funs_is e) -> evali late (call late n) c e m = Ok o m' -> at_ c m'.
Proof. intros [H Hd] HF E. split; [|exact Hd]. exact (proj1 (keep_is FS FS_closed n late c [] [] m e o m' H (sub_ok _ HF) E)). Qed.
Lemma at_s c e m o m' : at_ c m -> sub (funs_s e) -> exec late (call late n) n c e m = Ok o m' -> at_ c m'.
Proof. intros [H Hd] HF E. split; [|exact Hd]. exact (proj1 (keep_s FS FS_closed n late c [] [] m e o m' H (sub_ok _ HF) E)). Qed.
Lemma at_grow c m m' : at_ c m -> grow m m' -> at_ c m'.
Proof. intros [H Hd] HG. split; [|exact Hd]. exact (act_grow FS c [] [] m m' H HG). Qed.
Lemma at_wf c m : at_ c m -> wf m.
Proof. intros [H _]. apply (ac_gl _ _ _ _ _ H). Qed.
Lemma at_res c m x a m' : at_ c m -> resolve m (env c) x = (a, m') -> at_ c m'.
Proof.
  intros H E. eapply at_grow; [exact H|]. replace m' with (snd (resolve m (env c) x)) by now rewrite E.
  apply grow_resolve. eapply at_wf, H.
Qed.

Definition fine_e (e : expr) : Prop := forall c m, at_ c m -> sub (funs_e e) -> fine (eval late (call late n) c e m).
Definition fine_es (e : exprs) : Prop := forall c m, at_ c m -> sub (funs_es e) -> fine (evals late (call late n) c e m).
Definition fine_is (e : items) : Prop := forall c m, at_ c m -> sub (funs_is e) -> fine (evali late (call late n) c e m).
Lemma call_ok c m b r v vs t : at_ c m -> fine (call late n b r v vs t (depth c) m).
Proof. intros [H ->]. apply Hcall. apply (ac_gl _ _ _ _ _ H). Qed.

Lemma fine_expr : (forall e, fine_e e) /\ (forall es, fine_es es) /\ (forall is, fine_is is) /\ (forall s : stmt, True) /\ (forall f : fundef, True).
Proof.
  apply (fn_mut PS fine_e fine_es fine_is (fun _ => True) (fun _ => True)); auto.
  - intros p c m HA HF. rewrite eval_eq. exact I.
  - intros x c m HA HF. rewrite eval_eq. cbn [eval1]. destruct (resolve m (env c) x). exact I.
  - intros c m HA HF. rewrite eval_eq. exact I.
  - intros x e IH c m HA HF. rewrite eval_eq. cbn [eval1]. destruct (resolve m (env c) x) as [a m1] eqn:E.
    apply fine_bind; [apply IH; [eapply at_res; eassumption|exact HF]|]. intros o m2 E2. exact I.
  - intros u e IH c m HA HF. rewrite eval_eq. cbn [eval1]. apply fine_bind; [apply IH; assumption|].
    intros o m1 E. destruct (un_sem PS u (val m1 o)); exact I.
  - intros b x IHx y IHy c m HA HF. rewrite eval_eq. cbn [eval1].
    assert (F1 : sub (funs_e x)) by sb. assert (F2 : sub (funs_e y)) by sb.
    apply fine_bind; [apply IHx; assumption|]. intros o m1 E. pose proof (at_e _ _ _ _ _ HA F1 E) as HA1.
    apply fine_bind; [apply IHy; assumption|]. intros o2 m2 E2. destruct (bin_sem PS b _ _); exact I.
  - intros x IHx y IHy c m HA HF. rewrite eval_eq. cbn [eval1].
    assert (F1 : sub (funs_e x)) by sb. assert (F2 : sub (funs_e y)) by sb.
    apply fine_bind; [apply IHx; assumption|]. intros o m1 E. pose proof (at_e _ _ _ _ _ HA F1 E) as HA1.
    destruct (truth PS _); [apply IHy; assumption|exact I].
  - intros x IHx y IHy c m HA HF. rewrite eval_eq. cbn [eval1].
    assert (F1 : sub (funs_e x)) by sb. assert (F2 : sub (funs_e y)) by sb.
    apply fine_bind; [apply IHx; assumption|]. intros o m1 E. pose proof (at_e _ _ _ _ _ HA F1 E) as HA1.
    destruct (truth PS _); [exact I|apply IHy; assumption].
  - intros x IHx y IHy z IHz c m HA HF. rewrite eval_eq. cbn [eval1].
    assert (F1 : sub (funs_e x)) by sb. assert (F2 : sub (funs_e y)) by sb. assert (F3 : sub (funs_e z)) by sb.
    apply fine_bind; [apply IHx; assumption|]. intros o m1 E. pose proof (at_e _ _ _ _ _ HA F1 E) as HA1.
    destruct (truth PS _); [apply IHy|apply IHz]; assumption.
  - intros x IHx y IHy c m HA HF. rewrite eval_eq. cbn [eval1].
    assert (F1 : sub (funs_e x)) by sb. assert (F2 : sub (funs_e y)) by sb.
    apply fine_bind; [apply IHx; assumption|]. intros o m1 E. pose proof (at_e _ _ _ _ _ HA F1 E) as HA1.
    apply IHy; assumption.
  - intros x IHx c m HA HF. rewrite eval_eq. cbn [eval1]. apply fine_bind; [apply IHx; assumption|]. intros o m1 E. exact I.
  - intros f _ c m HA HF. rewrite eval_eq. cbn [eval1]. destruct (closure m (env c) f). exact I.
  - intros e IHe es IHs c m HA HF. rewrite eval_eq. cbn [eval1]. change (sub (funs_e e ++ funs_es es)) in HF.
    assert (F1 : sub (funs_e e)) by sb. assert (F2 : sub (funs_es es)) by sb.
    apply fine_bind; [apply IHe; assumption|]. intros o m1 E. pose proof (at_e _ _ _ _ _ HA F1 E) as HA1.
    apply fine_bind; [apply IHs; assumption|]. intros os m2 E2. pose proof (at_es _ _ _ _ _ HA1 F2 E2) as HA2.
    apply fine_bind; [apply call_ok; assumption|]. intros v m3 E3. exact I.
  - intros e IHe k es IHs c m HA HF. rewrite eval_eq. cbn [eval1]. change (sub (funs_e e ++ funs_es es)) in HF.
    assert (F1 : sub (funs_e e)) by sb. assert (F2 : sub (funs_es es)) by sb.
    apply fine_bind; [apply IHe; assumption|]. intros o m1 E. pose proof (at_e _ _ _ _ _ HA F1 E) as HA1.
    destruct (receiver m1 (val m1 o)) as [[t m2]|] eqn:ER; [|exact I].
    assert (HA2 : at_ c m2) by (eapply at_grow; [exact HA1|]; eapply grow_receiver; [eapply at_wf, HA1|exact ER]).
    destruct (member m2 (val m1 o) k) as [fv|]; [|exact I].
    apply fine_bind; [apply IHs; assumption|]. intros os m3 E3. pose proof (at_es _ _ _ _ _ HA2 F2 E3) as HA3.
    apply fine_bind; [apply call_ok; assumption|]. intros v m4 E4. exact I.
  - intros e IHe es IHs c m HA HF. rewrite eval_eq. cbn [eval1]. change (sub (funs_e e ++ funs_es es)) in HF.
    assert (F1 : sub (funs_e e)) by sb. assert (F2 : sub (funs_es es)) by sb.
    apply fine_bind; [apply IHe; assumption|]. intros o m1 E. pose proof (at_e _ _ _ _ _ HA F1 E) as HA1.
    apply fine_bind; [apply IHs; assumption|]. intros os m2 E2. pose proof (at_es _ _ _ _ _ HA1 F2 E2) as HA2.
    apply fine_bind; [apply call_ok; assumption|]. intros v m3 E3. exact I.
  - intros e IH k c m HA HF. rewrite eval_eq. cbn [eval1]. apply fine_bind; [apply IH; assumption|].
    intros o m1 E. destruct (member m1 _ k); exact I.
  - intros x IHx k y IHy c m HA HF. rewrite eval_eq. cbn [eval1].
    assert (F1 : sub (funs_e x)) by sb. assert (F2 : sub (funs_e y)) by sb.
    apply fine_bind; [apply IHx; assumption|]. intros o m1 E. pose proof (at_e _ _ _ _ _ HA F1 E) as HA1.
    apply fine_bind; [apply IHy; assumption|]. intros o2 m2 E2. destruct (set_member m2 _ k _); exact I.
  - intros is IH c m HA HF. rewrite eval_eq. cbn [eval1]. apply fine_bind; [apply IH; assumption|].
    intros kos m1 E. destruct (literal m1 _); exact I.
  - intros x e IH c m HA HF. rewrite eval_eq. cbn [eval1]. destruct (resolve m (env c) x) as [a m1] eqn:E.
    apply fine_bind; [apply IH; [eapply at_res; eassumption|exact HF]|]. intros o m2 E2. exact I.
  - intros c m HA HF. rewrite evals_eq. exact I.
  - intros e IHe es IHs c m HA HF. rewrite evals_eq. cbn [evals1]. change (sub (funs_e e ++ funs_es es)) in HF.
    assert (F1 : sub (funs_e e)) by sb. assert (F2 : sub (funs_es es)) by sb.
    apply fine_bind; [apply IHe; assumption|]. intros o m1 E. pose proof (at_e _ _ _ _ _ HA F1 E) as HA1.
    apply fine_bind; [apply IHs; assumption|]. intros os m2 E2. exact I.
  - intros c m HA HF. rewrite evali_eq. exact I.
  - intros k e IHe es IHs c m HA HF. rewrite evali_eq. cbn [evali1]. change (sub (funs_e e ++ funs_is es)) in HF.
    assert (F1 : sub (funs_e e)) by sb. assert (F2 : sub (funs_is es)) by sb.
    apply fine_bind; [apply IHe; assumption|]. intros o m1 E. pose proof (at_e _ _ _ _ _ HA F1 E) as HA1.
    apply fine_bind; [apply IHs; assumption|]. intros os m2 E2. exact I.
Qed.

Lemma fine_test e c m : at_ c m -> sub (funs_e e) -> fine (test late (call late n) c e m).
Proof. intros HA HF. apply fine_bind; [now apply fine_expr|]. intros o m1 E. exact I. Qed.
Lemma at_test c e m b m' : at_ c m -> sub (funs_e e) -> test late (call late n) c e m = Ok b m' -> at_ c m'.
Proof.
  intros HA HF. unfold test. destruct (eval late (call late n) c e m) as [o m1|m1| |] eqn:E; try discriminate.
  cbn. intros Q. injection Q as <- <-. eapply at_e; eassumption.
Qed.
Definition fine_s (s : stmt) : Prop := forall c m, at_ c m -> sub (funs_s s) -> (loops_s s = true -> bo) ->
  fine (exec late (call late n) n c s m).
Lemma fine_loop e a c (IHa : fine_s a) : bo -> sub (funs_e e) -> sub (funs_s a) -> forall k m, at_ c m ->
  fine (loop k (test late (call late n) c e) (exec late (call late n) n c a) m).
Proof.
  intros Hb F1 F2. induction k as [|k IH]; intros m HA; [exact Hb|]. cbn [loop].
  apply fine_bind; [now apply fine_test|]. intros b m1 E. pose proof (at_test _ _ _ _ _ HA F1 E) as HA1.
  destruct b; [|exact I]. apply fine_bind; [now apply IHa|]. intros r m2 E2.
  destruct r; [|exact I]. apply IH. eapply at_s; eassumption.
Qed.
Lemma fine_stmt : forall s, fine_s s.
Proof.
  pose proof (proj1 fine_expr) as HE.
  apply (stmt_mut PS (fun _ => True) (fun _ => True) (fun _ => True) fine_s (fun _ => True)); auto.
  - intros c m HA HF HL. exact I.
  - intros e _ c m HA HF HL. cbn [exec]. apply fine_bind; [now apply HE|]. intros o m1 E. exact I.
  - intros a IHa b IHb c m HA HF HL. cbn [exec loops_s] in *.
    assert (F1 : sub (funs_s a)) by sb. assert (F2 : sub (funs_s b)) by sb.
    apply fine_bind; [apply IHa; auto; intros H; apply HL; now rewrite H|]. intros r m1 E.
    destruct r; [|exact I]. apply IHb; [exact (at_s _ _ _ _ _ HA F1 E)|assumption|]. intros H; apply HL; now rewrite H, orb_true_r.
  - intros x e _ c m HA HF HL. cbn [exec]. destruct (resolve m (env c) x) as [a m1] eqn:E.
    apply fine_bind; [apply HE; [eapply at_res; eassumption|exact HF]|]. intros o m2 E2. exact I.
  - intros x c m HA HF HL. cbn [exec]. destruct (resolve m (env c) x). exact I.
  - intros x f _ c m HA HF HL. cbn [exec]. destruct (resolve m (env c) x) as [a m1]. destruct (closure m1 (env c) f). exact I.
  - intros e _ a IHa c m HA HF HL. cbn [exec loops_s] in *.
    assert (F1 : sub (funs_e e)) by sb. assert (F2 : sub (funs_s a)) by sb.
    apply fine_bind; [now apply fine_test|]. intros b m1 E. pose proof (at_test _ _ _ _ _ HA F1 E) as HA1.
    destruct b; [|exact I]. now apply IHa.
  - intros e _ a IHa b IHb c m HA HF HL. cbn [exec loops_s] in *.
    assert (F1 : sub (funs_e e)) by sb. assert (F2 : sub (funs_s a)) by sb. assert (F3 : sub (funs_s b)) by sb.
    apply fine_bind; [now apply fine_test|]. intros t m1 E. pose proof (at_test _ _ _ _ _ HA F1 E) as HA1.
    destruct t; [apply IHa|apply IHb]; auto; intros H; apply HL; rewrite H, ?orb_true_r; reflexivity.
  - intros e _ a IHa c m HA HF HL. cbn [exec loops_s] in *.
    assert (F1 : sub (funs_e e)) by sb. assert (F2 : sub (funs_s a)) by sb. apply fine_loop; auto.
  - intros e _ c m HA HF HL. cbn [exec]. apply fine_bind; [now apply HE|]. intros o m1 E. exact I.
  - intros c m HA HF HL. exact I.
Qed.
End Body.

Hypothesis Harrow : bu \/ forall f, In f FS -> is_arrow f = false.
Hypothesis Hloops : bo \/ forall f, In f FS -> loops_s (body f) = false.
(* enough fuel for the calls that the limit of depth allows *)
Definition enough (n d : nat) : Prop := bo \/ exists k, max_depth PS = Some (S k) /\ S k < n + d /\ 1 <= n.

Lemma fine_call late n : forall d b r v vs t m, enough n d -> gl FS m -> fine (call late n b r v vs t d m).
Proof.
  induction n as [|n IH]; intros d b r v vs t m Hn Hg.
  - destruct Hn as [Hn|(k & _ & _ & Hn)]; [exact Hn|lia].
  - cbn [call]. destruct v as [p|a]; [exact I|].
    set (m1 := add_obj (add_cells m vs) (mkobj [] None None)).
    destruct (obj_at m1 a) as [[pr po [[f sc]|]]|] eqn:EO; try exact I.
    assert (HC : closure_at m a f sc).
    { unfold closure_at. exists (mkobj pr po (Some (f, sc))). split; [|reflexivity].
      unfold obj_at, m1 in EO. cbn [add_obj add_cells objs] in EO.
      destruct (Nat.lt_ge_cases a (length (objs m))) as [H|H].
      - now rewrite nth_error_app1 in EO by assumption.
      - rewrite nth_error_app2 in EO by assumption. destruct (a - length (objs m)) as [|[|]]; discriminate EO. }
    assert (Hf : In f FS) by (apply (proj2 (proj2 Hg) a f sc HC); exact I).
    destruct (is_arrow f && _) eqn:EA.
    { apply andb_true_iff in EA. destruct EA as [EA _]. destruct Harrow as [H|H]; [exact H|]. rewrite (H f Hf) in EA. discriminate. }
    destruct (args_bad PS (params f) vs); [exact I|].
    destruct (match max_depth PS with Some k => (0 <? k) && (k <=? d) | None => false end) eqn:ED; [exact I|].
    destruct (g_enter _ _ _ _ _ (own_good None (fun f => In f FS) (fun f H f' H' => FS_closed f H f' H')) I m b a f sc vs Hg HC) as (H1 & H2 & [H3 _]).
    apply fine_bind; [|intros k m5 E; exact I].
    fold (entry_mem b a f vs m).
    apply (fine_stmt late n (S d)).
    + intros b' r' v' vs' t' m' Hg'. apply IH; [|exact Hg'].
      destruct Hn as [Hn|(k & Hk & Hn & _)]; [now left|]. right. exists k. split; [exact Hk|].
      rewrite Hk in ED. change (S k <=? d = false) in ED. apply Nat.leb_gt in ED. lia.
    + split; [|reflexivity]. constructor; [exact H1|exact H3|now left].
    + exact (FS_closed f Hf).
    + intros HL. destruct Hloops as [H|H]; [exact H|]. rewrite (H f Hf) in HL. discriminate.
Qed.
End Fine.

Section Programs.
Context {PS : psys}.
Notation stmt := (@stmt PS).
Lemma at_start (p : stmt) : at_ (funs_s p) 1 (mkctx [0] (VObj 0) 1) (@mem0 PS).
Proof.
  split; [|reflexivity]. constructor; [| |now left].
  - split; [apply wf_mem0|]. split; [exact I|]. intros a f sc (o & Ho & Hf). exfalso.
    unfold obj_at, mem0 in Ho. cbn [objs] in Ho.
    repeat (destruct a as [|a]; [cbn in Ho; injection Ho as <-; discriminate Hf|]; cbn [nth_error] in Ho).
    destruct a; discriminate Ho.
  - intros s [<-|[]]. cbn. lia.
Qed.
Lemma no_arrows_never_unk late n (p : stmt) : no_arrows p = true -> program late n p <> Unk.
Proof.
  intros H. unfold no_arrows in H. rewrite forallb_forall in H.
  assert (HA : False \/ forall f, In f (funs_s p) -> is_arrow f = false)
    by (right; intros f Hf; specialize (H f Hf); now apply negb_true_iff).
  pose proof (fun f (Hf : In f (funs_s p)) => funs_s_closed p f Hf) as FC.
  assert (F : fine True False (program late n p)).
  { unfold program. apply fine_bind; [|intros k m E; exact I].
    apply (fine_stmt (funs_s p) FC True False late n 1); [|apply at_start|apply incl_refl|auto].
    intros b r v vs t m Hg. apply (fine_call (funs_s p) FC True False HA (or_introl I)); [now left|exact Hg]. }
  intros E. rewrite E in F. exact F.
Qed.
Lemma no_loops_end late (p : stmt) k n : no_loops p = true -> max_depth PS = Some (S k) -> S k < n -> program late n p <> Out.
Proof.
  intros H Hk Hn. unfold no_loops in H. apply andb_true_iff in H. destruct H as [H0 H]. rewrite forallb_forall in H.
  apply negb_true_iff in H0.
  assert (HL : False \/ forall f, In f (funs_s p) -> loops_s (body f) = false)
    by (right; intros f Hf; specialize (H f Hf); now apply negb_true_iff).
  pose proof (fun f (Hf : In f (funs_s p)) => funs_s_closed p f Hf) as FC.
  assert (F : fine False True (program late n p)).
  { unfold program. apply fine_bind; [|intros c m E; exact I].
    apply (fine_stmt (funs_s p) FC False True late n 1); [|apply at_start|apply incl_refl|congruence].
    intros b r v vs t m Hg. apply (fine_call (funs_s p) FC False True (or_introl I) HL); [right; exists k|exact Hg].
    split; [exact Hk|lia]. }
  intros E. rewrite E in F. exact F.
Qed.
End Programs.
