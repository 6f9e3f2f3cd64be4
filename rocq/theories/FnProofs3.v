(** * The compiled program does what the specification says: expressions *)
Require Import ZArith List Bool Lia.
Import ListNotations.
Require Import Verif.FnModel Verif.FnSpec Verif.FnProofs Verif.FnProofs2.
Local Open Scope nat_scope.

Section Sim.
Context {PS : psys}.
Notation V := (value (prim PS)).
Notation vundef := (VPrim (undef PS)).
Notation mem := (@mem PS).
Notation code := (list (@instr PS)).
Notation slot := (@slot PS).
Notation expr := (@expr PS).
Notation exprs := (@exprs PS).
Notation items := (@items PS).
Notation stmt := (@stmt PS).
Notation fundef := (@fundef PS).
Notation operand := (@operand PS).
Notation res := (@res PS).
Notation frame := (@frame PS).

(** ** One unfolding of the specification *)
Section Unfold.
Variable late : bool.
Variable callf : bool -> option V -> V -> list V -> V -> nat -> mem -> res V.
Notation ctx := (@ctx PS).
Definition eval1 (c : ctx) (e : expr) (m : mem) : res operand :=
  match e with
  | ECon p => Ok (OVal (VPrim p)) m
  | EVar x => let '(a, m1) := resolve m (env c) x in Ok ((operand_of late) m1 a) m1
  | EThis => Ok (OVal (this_ c)) m
  | EAsg x e =>
      let '(a, m1) := resolve m (env c) x in
      FnSpec.bind (eval late callf c e m1) (fun o m2 => let m3 := writec m2 a (val m2 o) in Ok ((operand_of late) m3 a) m3)
  | EUn u e =>
      FnSpec.bind (eval late callf c e m) (fun o m1 => match un_sem PS u (val m1 o) with Some v => Ok (OVal v) m1 | None => Err m1 end)
  | EBin b x y =>
      FnSpec.bind (eval late callf c x m) (fun o1 m1 => FnSpec.bind (eval late callf c y m1) (fun o2 m2 =>
        match bin_sem PS b (val m2 o1) (val m2 o2) with Some v => Ok (OVal v) m2 | None => Err m2 end))
  | EAnd x y =>
      FnSpec.bind (eval late callf c x m) (fun o m1 => if truth PS (val m1 o) then eval late callf c y m1 else Ok (OVal (val m1 o)) m1)
  | EOr x y =>
      FnSpec.bind (eval late callf c x m) (fun o m1 => if truth PS (val m1 o) then Ok (OVal (val m1 o)) m1 else eval late callf c y m1)
  | ECond x y z =>
      FnSpec.bind (eval late callf c x m) (fun o m1 => if truth PS (val m1 o) then eval late callf c y m1 else eval late callf c z m1)
  | EComma x y => FnSpec.bind (eval late callf c x m) (fun _ m1 => eval late callf c y m1)
  | EVoid x => FnSpec.bind (eval late callf c x m) (fun _ m1 => Ok (OVal vundef) m1)
  | EFun f => let '(v, m1) := closure m (env c) f in Ok (OVal v) m1
  | ECall e es =>
      FnSpec.bind (eval late callf c e m) (fun o m1 => FnSpec.bind (evals late callf c es m1) (fun os m2 =>
        FnSpec.bind (callf false None (val m2 o) (map (val m2) os) (this_ c) (depth c) m2) (fun v m3 => Ok (OVal v) m3)))
  | EMeth e k es =>
      FnSpec.bind (eval late callf c e m) (fun o m1 =>
        match receiver m1 (val m1 o) with
        | None => Err m1
        | Some (t, m2) =>
            match member m2 (val m1 o) k with
            | None => Err m2
            | Some f =>
                FnSpec.bind (evals late callf c es m2) (fun os m3 =>
                  FnSpec.bind (callf false (Some t) f (map (val m3) os) (this_ c) (depth c) m3) (fun v m4 => Ok (OVal v) m4))
            end
        end)
  | ENew e es =>
      FnSpec.bind (eval late callf c e m) (fun o m1 => FnSpec.bind (evals late callf c es m1) (fun os m2 =>
        FnSpec.bind (callf true None (val m2 o) (map (val m2) os) (this_ c) (depth c) m2) (fun v m3 => Ok (OVal v) m3)))
  | EGet e k =>
      FnSpec.bind (eval late callf c e m) (fun o m1 => match member m1 (val m1 o) k with Some v => Ok (OVal v) m1 | None => Err m1 end)
  | ESet e k x =>
      FnSpec.bind (eval late callf c e m) (fun o m1 => FnSpec.bind (eval late callf c x m1) (fun o2 m2 =>
        match set_member m2 (val m2 o) k (val m2 o2) with Some m3 => Ok (OVal (val m2 o2)) m3 | None => Err m2 end))
  | EObj is =>
      FnSpec.bind (evali late callf c is m) (fun kos m1 =>
        let '(v, m2) := literal m1 (map (fun ko => (fst ko, val m1 (snd ko))) kos) in Ok (OVal v) m2)
  | EInst x e =>
      let '(a, m1) := resolve m (env c) x in
      let o := (operand_of late) m1 a in
      FnSpec.bind (eval late callf c e m1) (fun o2 m2 => Ok (OVal (VPrim (vbool PS (inst m2 (val m2 o) (val m2 o2))))) m2)
  end.
Definition evals1 (c : ctx) (es : exprs) (m : mem) : res (list operand) :=
  match es with
  | Enil => Ok [] m
  | Econs e r => FnSpec.bind (eval late callf c e m) (fun o m1 => FnSpec.bind (evals late callf c r m1) (fun os m2 => Ok (o :: os) m2))
  end.
Definition evali1 (c : ctx) (is : items) (m : mem) : res (list (name * operand)) :=
  match is with
  | Inil => Ok [] m
  | Icons k e r => FnSpec.bind (eval late callf c e m) (fun o m1 => FnSpec.bind (evali late callf c r m1) (fun os m2 => Ok ((k, o) :: os) m2))
  end.


Lemma eval_eq c e m : eval late callf c e m = eval1 c e m.
Proof. destruct e; reflexivity. Qed.
Lemma evals_eq c es m : evals late callf c es m = evals1 c es m.
Proof. destruct es; reflexivity. Qed.
Lemma evali_eq c is m : evali late callf c is m = evali1 c is m.
Proof. destruct is; reflexivity. Qed.
End Unfold.

Lemma post_eval {A B} n F i s th (m : mem) (r : res A) (k : A -> mem -> res B) i1 f n1 K :
  post n (cf F i s th m) r (lands F i1 f th n1) -> closed K ->
  (forall a m1 th1, mem_ok m1 -> keeps th th1 n1 -> post n (cf F i1 (f a) th1 m1) (k a m1) K) ->
  post n (cf F i s th m) (FnSpec.bind r k) K.
Proof.
  intros Hr HK H. apply post_bind with (K := lands F i1 f th n1); [assumption|].
  intros a m1 (Hm & th1 & Hk & Hv). apply post_via with (cf F i1 (f a) th1 m1); auto.
Qed.
Lemma post_step {A} n g g' (r : res A) K :
  (forall j, rn (S j) g = rn j g') -> closed K -> post n g' r K -> post n g r K.
Proof. intros H HK. apply post_via; [assumption|]. now apply via_weak with 1, via_one. Qed.
Lemma post_done {A} n g F i' (f : A -> list slot) th0 n0 a (m : mem) th :
  (forall j, rn (S j) g = rn j (cf F i' (f a) th m)) -> mem_ok m -> keeps th0 th n0 ->
  post n g (Ok a m) (lands F i' f th0 n0).
Proof.
  intros H Hm Hk. split; [assumption|]. exists th. split; [assumption|]. now apply via_weak with 1, via_one.
Qed.
Lemma post_here {A} n F i i' (s : list slot) th (m : mem) (f : A -> list slot) th0 n0 a :
  i = i' -> s = f a -> mem_ok m -> keeps th0 th n0 ->
  post n (cf F i s th m) (Ok a m) (lands F i' f th0 n0).
Proof.
  intros -> -> Hm Hk. split; [assumption|]. exists th. split; [assumption|]. apply via_refl.
Qed.
Lemma post_fail {A} n g (m : mem) (K : cfg -> A -> mem -> Prop) : rn 1 g = Fail m -> post n g (Err m) K.
Proof. intros H. exists 1. exact H. Qed.
Lemma post_lands {A} n g (r : res A) F i i' (f : A -> list slot) f' th0 th1 n0 n1 :
  post n g r (lands F i f th1 n1) -> i = i' -> (forall a, f a = f' a) ->
  (forall th', keeps th1 th' n1 -> keeps th0 th' n0) ->
  post n g r (lands F i' f' th0 n0).
Proof.
  intros H -> Hf Hk. destruct r; cbn in *; auto. destruct H as (Hm & th' & H1 & H2).
  split; [assumption|]. exists th'. rewrite <- Hf. auto.
Qed.

Lemma post_after {A} n g (r : res A) F i i' (f f' : A -> list slot) th0 n0 :
  post n g r (lands F i f th0 n0) ->
  (forall a th m j, rn (S j) (cf F i (f a) th m) = rn j (cf F i' (f' a) th m)) ->
  post n g r (lands F i' f' th0 n0).
Proof.
  intros H Hs. destruct r; try exact H. destruct H as (Hm & th' & H1 & H2).
  split; [assumption|]. exists th'. split; [assumption|]. eapply via0_trans; [exact H2|].
  apply via_weak with 1, via_one. auto.
Qed.

(* the context of the specification that belongs to an activation *)
Definition ctx_of (F : frame) : @ctx PS := mkctx (fcur F :: rev (fscope F)) (fthis F) (fdep F).

Section Fixed.
Variable n : nat.
Notation callf := (call true n).

(* the call instruction does what [call] says *)
Definition sim_call : Prop := forall F i args callee r th (m : mem) (isnew : bool) rcv,
  fetch (fcode F) i = Some (if isnew then INewFcall (length args) else IFcall (length args)) ->
  mem_ok m -> clean th (S (length r)) ->
  match rcv with Some v => th (length r) = v /\ (exists a, v = VObj a) | None => exists p, th (length r) = VPrim p end ->
  post n (cf F i (rev args ++ callee :: r) th m)
       (callf isnew rcv (deref m callee) (map (deref m) args) (fthis F) (fdep F) m)
       (lands F (i + 1)%Z (fun v => SVal v :: r) th (length r)).
Hypothesis Hcall : sim_call.

Definition sim_e (e : expr) : Prop := forall F i s th (m : mem),
  seg (fcode F) i (comp_e e) -> mem_ok m -> clean th (length s) ->
  post n (cf F i s th m) (eval true callf (ctx_of F) e m)
       (lands F (i + zlen (comp_e e))%Z (fun o => slot_of o :: s) th (length s)).

Fixpoint flat_es (es : exprs) : code := match es with Enil => [] | Econs e r => comp_e e ++ flat_es r end.
Fixpoint flat_is (is : items) : code :=
  match is with Inil => [] | Icons k e r => IPushStr k :: comp_e e ++ flat_is r end.
Definition push_all (os : list operand) (s : list slot) : list slot := rev (map slot_of os) ++ s.
Definition push_items (kos : list (name * operand)) (s : list slot) : list slot :=
  fold_left (fun st ko => slot_of (snd ko) :: SKey (fst ko) :: st) kos s.

Definition sim_es (es : exprs) : Prop := forall F i s th (m : mem),
  seg (fcode F) i (flat_es es) -> mem_ok m -> clean th (length s) ->
  post n (cf F i s th m) (evals true callf (ctx_of F) es m)
       (lands F (i + zlen (flat_es es))%Z (fun os => push_all os s) th (length s)).
Definition sim_is (is : items) : Prop := forall F i s th (m : mem),
  seg (fcode F) i (flat_is is) -> mem_ok m -> clean th (length s) ->
  post n (cf F i s th m) (evali true callf (ctx_of F) is m)
       (lands F (i + zlen (flat_is is))%Z (fun kos => push_items kos s) th (length s)).

Lemma comp_es_flat es : comp_es es = match es with Enil => [INop] | Econs _ _ => flat_es es end.
Proof.
  assert (H : forall e r, comp_es (Econs e r) = flat_es (Econs e r)).
  { intros e r. revert e. induction r as [|e' r IH]; intros e.
    - reflexivity.
    - cbn [comp_es flat_es] in IH |- *. now rewrite IH. }
  destruct es; [reflexivity|apply H].
Qed.
Lemma comp_is_flat is : comp_is is = match is with Inil => [INop] | Icons _ _ _ => flat_is is end.
Proof.
  assert (H : forall k e r, comp_is (Icons k e r) = flat_is (Icons k e r)).
  { intros k e r. revert k e. induction r as [|k' e' r IH]; intros k e.
    - reflexivity.
    - cbn [comp_is flat_is] in IH |- *. now rewrite IH. }
  destruct is; [reflexivity|apply H].
Qed.

(** ** The memory stays well formed *)
Lemma resolve_ok (m : mem) en x : mem_ok m -> mem_ok (snd (resolve m en x)).
Proof.
  intros H. unfold resolve. destruct (first_with m x en); cbn [snd]; [assumption|]. now apply mem_ok_set_prop.
Qed.
Lemma closure_ok (m : mem) en f : mem_ok m -> mem_ok (snd (closure m en f)).
Proof.
  intros H. unfold closure. cbn [snd]. unfold mem_ok in *. cbn [objs]. apply Forall_app. split; [assumption|].
  repeat constructor.
Qed.
Lemma receiver_ok (m : mem) v t m' : mem_ok m -> receiver m v = Some (t, m') -> mem_ok m' /\ exists a, t = VObj a.
Proof.
  intros H. destruct v as [p|a]; cbn [receiver].
  - destruct (wrapper PS p) as [pr|]; [|discriminate]. intros E. injection E as <- <-. split; [|eauto].
    apply mem_ok_add_obj; [assumption|exact I].
  - intros E. injection E as <- <-. eauto.
Qed.
Lemma receiver_val (m : mem) v t m' o : receiver m v = Some (t, m') -> val m' o = val m o.
Proof.
  destruct v as [p|a]; cbn [receiver].
  - destruct (wrapper PS p) as [pr|]; [|discriminate]. intros E. injection E as <- <-. destruct o; reflexivity.
  - intros E. injection E as <- <-. reflexivity.
Qed.
Lemma set_member_ok (m : mem) o k v m' : mem_ok m -> set_member m o k v = Some m' -> mem_ok m'.
Proof.
  intros H. destruct o; cbn [set_member]; [discriminate|]. destruct (k =? prototype); [discriminate|].
  intros E. injection E as <-. now apply mem_ok_set_prop.
Qed.
Lemma literal_ok (m : mem) kvs : mem_ok m -> mem_ok (snd (literal m kvs)).
Proof.
  intros H. unfold literal. cbn [snd]. apply (mem_ok_fold (fun kv => kv)). apply mem_ok_add_obj; [assumption|exact I].
Qed.
Lemma writec_ok (m : mem) c v : mem_ok m -> mem_ok (writec m c v).
Proof. intros H. exact H. Qed.

Lemma push_var_ctx (m : mem) F x : mem_ok m -> push_var m (fscope F) (fcur F) x = resolve m (env (ctx_of F)) x.
Proof. intros H. now apply push_var_resolve. Qed.
Lemma push_func_ctx (m : mem) F f : push_func m (fscope F) (fcur F) f = closure m (env (ctx_of F)) f.
Proof. apply push_func_closure. Qed.

Lemma take_push (m : mem) kos s :
  take_items m (length kos) (push_items kos s) = Some (map (fun ko => (fst ko, val m (snd ko))) kos, s).
Proof.
  induction kos as [|ko kos IH] using rev_ind; [reflexivity|].
  rewrite app_length, Nat.add_1_r. unfold push_items. rewrite fold_left_app. fold (push_items kos s).
  cbn [fold_left take_items]. rewrite IH. rewrite map_app. cbn [map]. now rewrite deref_slot.
Qed.
Lemma push_all_length os s : length (push_all os s) = length os + length s.
Proof. unfold push_all. now rewrite app_length, rev_length, map_length. Qed.
Lemma deref_all (m : mem) os : map (deref m) (map slot_of os) = map (val m) os.
Proof. rewrite map_map. apply map_ext. intros. apply deref_slot. Qed.
Lemma evals_length c (es : exprs) m os m' : evals true callf c es m = Ok os m' -> length os = count es.
Proof.
  revert m os m'. induction es as [|e r IH]; intros m os m'; rewrite evals_eq; cbn [evals1 count].
  - intros E. injection E as <- <-. reflexivity.
  - destruct (eval true callf c e m) as [o m1|m1| |]; cbn [FnSpec.bind]; try discriminate.
    destruct (evals true callf c r m1) as [os1 m2|m2| |] eqn:E2; cbn [FnSpec.bind]; try discriminate.
    intros E. injection E as <- <-. cbn [length]. f_equal. eapply IH, E2.
Qed.
Lemma evali_length c (is : items) m os m' : evali true callf c is m = Ok os m' -> length os = icount is.
Proof.
  revert m os m'. induction is as [|k e r IH]; intros m os m'; rewrite evali_eq; cbn [evali1 icount].
  - intros E. injection E as <- <-. reflexivity.
  - destruct (eval true callf c e m) as [o m1|m1| |]; cbn [FnSpec.bind]; try discriminate.
    destruct (evali true callf c r m1) as [os1 m2|m2| |] eqn:E2; cbn [FnSpec.bind]; try discriminate.
    intros E. injection E as <- <-. cbn [length]. f_equal. eapply IH, E2.
Qed.

Ltac unrun := unfold rn; cbn [fr ix stk rcvs mm run]; unfold step.
Ltac fet := repeat match goal with H : fetch _ _ = Some _ |- _ => rewrite H end.
Ltac segs := repeat match goal with
  | H : seg _ _ (_ ++ _) |- _ => apply seg_app in H; destruct H
  | H : seg _ _ (_ :: _) |- _ => apply seg_cons in H; destruct H
  end.
Ltac zl := rewrite ?zlen_app, ?zlen_cons, ?zlen_app, ?zlen_cons, ?zlen_app, ?zlen_cons, ?zlen_nil; lia.
Ltac one := intros j; unrun; fet.
Ltac same := match goal with |- run ?a _ _ _ _ _ ?i _ _ _ = run ?a _ _ _ _ _ ?j _ _ _ =>
   let H := fresh in assert (H : i = j) by zl; first [reflexivity | rewrite H; reflexivity] end.
Ltac keep := repeat (first [assumption | apply keeps_refl | eapply keeps_trans; [eassumption|]]).

Ltac goto g := apply post_step with (g' := g); [|apply lands_closed|].

Lemma keeps_up (a b : nat -> V) k : clean a k -> keeps a b (S k) -> keeps a b k.
Proof. intros Hc H. apply keeps_le with (S k); auto. intros j Hj. apply Hc. lia. Qed.
Lemma keeps_clean (a b : nat -> V) k : keeps a b k -> clean b k.
Proof. now intros [_ H]. Qed.
Lemma keeps_next (a b c : nat -> V) k : keeps a b k -> keeps b c (S k) -> keeps a c k.
Proof. intros H1 H2. apply keeps_trans with b; [assumption|]. apply keeps_up; [now apply keeps_clean in H1|assumption]. Qed.

Lemma sim_args es (Hes : sim_es es) cv F i c (s : list slot) th (m : mem) (isnew : bool) rcv :
  (forall m, deref m c = cv m) ->
  seg (fcode F) i (comp_es es) ->
  fetch (fcode F) (i + zlen (comp_es es))%Z = Some (if isnew then INewFcall (count es) else IFcall (count es)) ->
  mem_ok m -> clean th (S (length s)) ->
  match rcv with Some v => th (length s) = v /\ (exists a, v = VObj a) | None => exists p, th (length s) = VPrim p end ->
  post n (cf F i (c :: s) th m)
    (FnSpec.bind (evals true callf (ctx_of F) es m) (fun os m2 =>
       FnSpec.bind (callf isnew rcv (cv m2) (map (val m2) os) (fthis F) (fdep F) m2) (fun v m3 => Ok (OVal v) m3)))
    (lands F (i + zlen (comp_es es) + 1)%Z (fun o => slot_of o :: s) th (length s)).
Proof.
  intros Hcv Hs Hf Hm Hc Hr.
  assert (HC : forall {A} F i (f : A -> list slot) th k, closed (lands F i f th k)) by (intros; apply lands_closed).
  assert (HE : post n (cf F i (c :: s) th m) (evals true callf (ctx_of F) es m)
                 (lands F (i + zlen (comp_es es))%Z (fun os => push_all os (c :: s)) th (S (length s)))).
  { rewrite comp_es_flat in Hs |- *. destruct es as [|e r].
    - segs. rewrite evals_eq. cbn [evals1]. apply post_done with th; auto; [|now apply keeps_refl]. one. same.
    - now apply Hes. }
  destruct (evals true callf (ctx_of F) es m) as [os m1|m1| |] eqn:EE; cbn [FnSpec.bind]; try exact HE.
  apply evals_length in EE. destruct HE as (Hm1 & th1 & Hk & Hv).
  apply post_via with (cf F (i + zlen (comp_es es))%Z (push_all os (c :: s)) th1 m1); [apply HC|exact Hv|].
  eapply post_eval; [|apply HC|].
  - eapply post_lands.
    + unfold push_all. rewrite <- deref_all, <- Hcv. apply Hcall.
      * rewrite map_length, EE. exact Hf.
      * assumption.
      * now apply keeps_clean in Hk.
      * destruct Hk as [Hk _]. rewrite Hk by lia. exact Hr.
    + reflexivity.
    + reflexivity.
    + intros th' H. exact H.
  - intros v m2 th2 Hm2 Hk2. apply post_here; auto.
    destruct Hk as [Hk _], Hk2 as [Hk2 Hc2]. split; [|assumption].
    intros j Hj. rewrite Hk2, Hk by lia. reflexivity.
Qed.

Lemma sim_expr : forall e, sim_e e.
Proof.
  assert (HC : forall {A} F i (f : A -> list slot) th k, closed (lands F i f th k)) by (intros; apply lands_closed).
  apply (expr_mut PS sim_e sim_es sim_is (fun _ => True) (fun _ => True)); auto.
    - (* ECon *) intros p F i s th m Hs Hm Hc. cbn [comp_e] in *. segs. rewrite eval_eq. cbn [eval1].
      apply post_done with th; [|assumption|now apply keeps_refl]. one. same.
    - (* EVar *) intros x F i s th m Hs Hm Hc. cbn [comp_e] in *. segs. rewrite eval_eq. cbn [eval1].
      destruct (resolve m (env (ctx_of F)) x) as [c m1] eqn:E.
      assert (Hm1 : mem_ok m1) by (pose proof (resolve_ok m (env (ctx_of F)) x Hm) as Q; now rewrite E in Q).
      apply post_done with th; [|assumption|now apply keeps_refl]. one.
      rewrite push_var_ctx, E by assumption. cbn [operand_of slot_of]. same.
    - (* EThis *) intros F i s th m Hs Hm Hc. cbn [comp_e] in *. segs. rewrite eval_eq. cbn [eval1].
      apply post_done with th; [|assumption|now apply keeps_refl]. one. same.
    - (* EAsg *) intros x e IH F i s th m Hs Hm Hc. cbn [comp_e] in *. segs. rewrite eval_eq. cbn [eval1].
      destruct (resolve m (env (ctx_of F)) x) as [c m1] eqn:E.
      assert (Hm1 : mem_ok m1) by (pose proof (resolve_ok m (env (ctx_of F)) x Hm) as Q; now rewrite E in Q).
      apply post_step with (cf F (i + 1)%Z (SRef c :: s) th m1); [|apply HC|].
      { one. rewrite push_var_ctx, E by assumption. reflexivity. }
      eapply post_eval; [apply IH; eauto using clean_le|apply HC|].
      intros o m2 th2 Hm2 Hk2. cbn [length] in Hk2.
      apply post_done with th2; [|assumption|now apply keeps_up].
      one. cbn [operand_of slot_of]. rewrite deref_slot, writec_set. same.
    - (* EUn *) intros u e IH F i s th m Hs Hm Hc. cbn [comp_e] in *. segs. rewrite eval_eq. cbn [eval1].
      eapply post_eval; [apply IH; eauto|apply HC|].
      intros o m2 th2 Hm2 Hk2.
      destruct (un_sem PS u (val m2 o)) eqn:E.
      + apply post_done with th2; auto. one. rewrite deref_slot, E. same.
      + apply post_fail. unrun. fet. now rewrite deref_slot, E.
    - (* EBin *) intros b x IHx y IHy F i s th m Hs Hm Hc. cbn [comp_e] in *. segs. rewrite eval_eq. cbn [eval1].
      eapply post_eval; [apply IHx; eauto|apply HC|]. intros o1 m1 th1 Hm1 Hk1.
      eapply post_eval; [apply IHy; eauto|apply HC|].
      { cbn [length]. eapply clean_le; [eapply keeps_clean, Hk1|lia]. }
      intros o2 m2 th2 Hm2 Hk2. cbn [length] in Hk2.
      destruct (bin_sem PS b (val m2 o1) (val m2 o2)) eqn:E.
      + apply post_done with th2; [|assumption|now apply keeps_next with th1]. one. rewrite !deref_slot, E. same.
      + apply post_fail. unrun. fet. now rewrite !deref_slot, E.
    - (* EAnd *) intros x IHx y IHy F i s th m Hs Hm Hc. cbn [comp_e] in *. segs. rewrite eval_eq. cbn [eval1].
      eapply post_eval; [apply IHx; eauto|apply HC|]. intros o1 m1 th1 Hm1 Hk1.
      destruct (truth PS (val m1 o1)) eqn:E.
      + goto (cf F (i + zlen (comp_e x) + 1)%Z (SVal (val m1 o1) :: s) th1 m1).
        { one. rewrite !deref_slot, E. same. }
        goto (cf F (i + zlen (comp_e x) + 1 + 1)%Z s th1 m1).
        { one. same. }
        eapply post_lands; [apply IHy; eauto using keeps_clean|zl|reflexivity|].
        intros th' Hk. now apply keeps_trans with th1.
      + apply post_done with th1; auto. one. rewrite !deref_slot, E. same.
    - (* EOr *) intros x IHx y IHy F i s th m Hs Hm Hc. cbn [comp_e] in *. segs. rewrite eval_eq. cbn [eval1].
      eapply post_eval; [apply IHx; eauto|apply HC|]. intros o1 m1 th1 Hm1 Hk1.
      destruct (truth PS (val m1 o1)) eqn:E.
      + apply post_done with th1; auto. one. rewrite !deref_slot, E. same.
      + goto (cf F (i + zlen (comp_e x) + 1)%Z (SVal (val m1 o1) :: s) th1 m1).
        { one. rewrite !deref_slot, E. same. }
        goto (cf F (i + zlen (comp_e x) + 1 + 1)%Z s th1 m1).
        { one. same. }
        eapply post_lands; [apply IHy; eauto using keeps_clean|zl|reflexivity|].
        intros th' Hk. now apply keeps_trans with th1.
    - (* ECond *) intros x IHx y IHy z IHz F i s th m Hs Hm Hc. cbn [comp_e] in *. segs. rewrite eval_eq. cbn [eval1].
      eapply post_eval; [apply IHx; eauto|apply HC|]. intros o1 m1 th1 Hm1 Hk1.
      destruct (truth PS (val m1 o1)) eqn:E.
      + goto (cf F (i + zlen (comp_e x) + 1)%Z s th1 m1).
        { one. rewrite !deref_slot, E. same. }
        eapply post_after; [eapply post_lands; [apply IHy; eauto using keeps_clean|reflexivity|reflexivity|]|].
        { intros th' Hk. now apply keeps_trans with th1. }
        intros o th' m'. one. same.
      + goto (cf F (i + zlen (comp_e x) + 1 + zlen (comp_e y) + 1)%Z s th1 m1).
        { one. rewrite !deref_slot, E. same. }
        eapply post_lands; [apply IHz; eauto using keeps_clean| |reflexivity|].
        { zl. }
        intros th' Hk. now apply keeps_trans with th1.
    - (* EComma *) intros x IHx y IHy F i s th m Hs Hm Hc. cbn [comp_e] in *. segs. rewrite eval_eq. cbn [eval1].
      eapply post_eval; [apply IHx; eauto|apply HC|]. intros o1 m1 th1 Hm1 Hk1.
      goto (cf F (i + zlen (comp_e x) + 1)%Z s th1 m1).
      { one. same. }
      eapply post_lands; [apply IHy; eauto using keeps_clean|zl|reflexivity|].
      intros th' Hk. now apply keeps_trans with th1.
    - (* EVoid *) intros x IHx F i s th m Hs Hm Hc. cbn [comp_e] in *. segs. rewrite eval_eq. cbn [eval1].
      eapply post_eval; [apply IHx; eauto|apply HC|]. intros o1 m1 th1 Hm1 Hk1.
      goto (cf F (i + zlen (comp_e x) + 1)%Z s th1 m1).
      { one. same. }
      apply post_done with th1; auto. one. same.
    - (* EFun *) intros f _ F i s th m Hs Hm Hc. cbn [comp_e] in *. segs. rewrite eval_eq. cbn [eval1].
      destruct (closure m (env (ctx_of F)) f) as [v m1] eqn:E.
      assert (Hm1 : mem_ok m1) by (pose proof (closure_ok m (env (ctx_of F)) f Hm) as Q; now rewrite E in Q).
      apply post_done with th; [|assumption|now apply keeps_refl]. one.
      rewrite push_func_ctx, E. same.
    - (* ECall *) intros e IHe es IHs F i s th m Hs Hm Hc. change (comp_e (ECall e es)) with (comp_e e ++ IChthis false :: comp_es es ++ [IFcall (count es)]) in *. segs. rewrite eval_eq. cbn [eval1].
      eapply post_eval; [apply IHe; eauto|apply HC|]. intros o1 m1 th1 Hm1 Hk1.
      goto (cf F (i + zlen (comp_e e) + 1)%Z (slot_of o1 :: s) th1 m1).
      { one. same. }
      assert (Hcl : clean th1 (length s)) by now apply keeps_clean in Hk1.
      eapply post_lands with (th1 := th1) (n1 := length s).
      + apply (sim_args es IHs (fun m2 => val m2 o1)); eauto using clean_le. intros; apply deref_slot.
      + zl.
      + reflexivity.
      + intros th' Hk. now apply keeps_trans with th1.
    - (* EMeth *) intros e IHe k es IHs F i s th m Hs Hm Hc. change (comp_e (EMeth e k es)) with (comp_e e ++ IPushStr k :: IChthis true :: ISub :: comp_es es ++ [IFcall (count es)]) in *. segs. rewrite eval_eq. cbn [eval1].
      eapply post_eval; [apply IHe; eauto|apply HC|]. intros o1 m1 th1 Hm1 Hk1.
      goto (cf F (i + zlen (comp_e e) + 1)%Z (SKey k :: slot_of o1 :: s) th1 m1).
      { one. same. }
      destruct (receiver m1 (val m1 o1)) as [[t m2]|] eqn:E.
      2:{ apply post_fail. unrun. fet. now rewrite to_object_receiver, deref_slot, E. }
      goto (cf F (i + zlen (comp_e e) + 1 + 1)%Z (SKey k :: slot_of o1 :: s) (set_th th1 (length s) t) m2).
      { one. rewrite to_object_receiver, deref_slot, E. same. }
      destruct (receiver_ok _ _ _ _ Hm1 E) as [Hm2 [a ->]].
      assert (EV : val m2 o1 = val m1 o1) by (eapply receiver_val, E).
      destruct (member m2 (val m1 o1) k) as [f|] eqn:E2.
      2:{ apply post_fail. unrun. fet. now rewrite subscript_member, deref_slot, EV, E2. }
      goto (cf F (i + zlen (comp_e e) + 1 + 1 + 1)%Z (SVal f :: s) (set_th th1 (length s) (VObj a)) m2).
      { one. rewrite subscript_member, deref_slot, EV, E2. same. }
      assert (Hcl : clean th1 (length s)) by now apply keeps_clean in Hk1.
      assert (Hst : forall j, j <> length s -> set_th th1 (length s) (VObj a) j = th1 j).
      { intros j Hj. unfold set_th. destruct (Nat.eqb_spec j (length s)); congruence. }
      eapply post_lands with (th1 := set_th th1 (length s) (VObj a)) (n1 := length s).
      + apply (sim_args es IHs (fun _ => f) F (i + zlen (comp_e e) + 1 + 1 + 1)%Z (SVal f) s _ m2 false (Some (VObj a))); auto.
        * intros j Hj. rewrite Hst by lia. apply Hcl. lia.
        * split; [|eauto]. unfold set_th. now rewrite Nat.eqb_refl.
      + zl.
      + reflexivity.
      + intros th' [Hk1' Hk2']. apply keeps_trans with th1; [assumption|]. split; [|assumption].
        intros j Hj. rewrite Hk1', Hst by lia. reflexivity.
    - (* ENew *) intros e IHe es IHs F i s th m Hs Hm Hc. change (comp_e (ENew e es)) with (comp_e e ++ comp_es es ++ [INewFcall (count es)]) in *. segs. rewrite eval_eq. cbn [eval1].
      eapply post_eval; [apply IHe; eauto|apply HC|]. intros o1 m1 th1 Hm1 Hk1.
      assert (Hcl : clean th1 (length s)) by now apply keeps_clean in Hk1.
      eapply post_lands with (th1 := th1) (n1 := length s).
      + apply (sim_args es IHs (fun m2 => val m2 o1)); eauto using clean_le. intros; apply deref_slot.
      + zl.
      + reflexivity.
      + intros th' Hk. now apply keeps_trans with th1.
    - (* EGet *) intros e IH k F i s th m Hs Hm Hc. cbn [comp_e] in *. segs. rewrite eval_eq. cbn [eval1].
      eapply post_eval; [apply IH; eauto|apply HC|]. intros o1 m1 th1 Hm1 Hk1.
      goto (cf F (i + zlen (comp_e e) + 1)%Z (SKey k :: slot_of o1 :: s) th1 m1).
      { one. same. }
      destruct (member m1 (val m1 o1) k) as [f|] eqn:E2.
      + apply post_done with th1; auto. one. rewrite subscript_member, deref_slot, E2. same.
      + apply post_fail. unrun. fet. now rewrite subscript_member, deref_slot, E2.
    - (* ESet *) intros e IHe k x IHx F i s th m Hs Hm Hc. cbn [comp_e] in *. segs. rewrite eval_eq. cbn [eval1].
      eapply post_eval; [apply IHe; eauto|apply HC|]. intros o1 m1 th1 Hm1 Hk1.
      assert (Hcl : clean th1 (length s)) by now apply keeps_clean in Hk1.
      goto (cf F (i + zlen (comp_e e) + 1)%Z (SKey k :: slot_of o1 :: s) th1 m1).
      { one. same. }
      eapply post_eval; [apply IHx; eauto using clean_le|apply HC|]. intros o2 m2 th2 Hm2 Hk2. cbn [length] in Hk2.
      destruct (set_member m2 (val m2 o1) k (val m2 o2)) as [m3|] eqn:E2.
      + apply post_done with th2.
        * one. rewrite assign_mem_set, !deref_slot, E2 by assumption. same.
        * eapply set_member_ok; eassumption.
        * apply keeps_trans with th1; [assumption|].
          apply keeps_up; [assumption|]. apply keeps_up; [|assumption]. eapply clean_le; [eassumption|lia].
      + apply post_fail. unrun. fet. now rewrite assign_mem_set, !deref_slot, E2 by assumption.
    - (* EObj *) intros is IH F i s th m Hs Hm Hc. change (comp_e (EObj is)) with (comp_is is ++ [IObject (icount is)]) in *. segs. rewrite eval_eq. cbn [eval1].
      assert (HE : post n (cf F i s th m) (evali true callf (ctx_of F) is m)
                 (lands F (i + zlen (comp_is is))%Z (fun os => push_items os s) th (length s))).
      { rewrite comp_is_flat in H |- *. destruct is as [|k e r].
        - segs. rewrite evali_eq. cbn [evali1]. apply post_done with th; auto; [|now apply keeps_refl]. one. same.
        - now apply IH. }
      destruct (evali true callf (ctx_of F) is m) as [os m1|m1| |] eqn:EE; cbn [FnSpec.bind]; try exact HE.
      apply evali_length in EE. destruct HE as (Hm1 & th1 & Hk & Hv).
      destruct (literal m1 (map (fun ko => (fst ko, val m1 (snd ko))) os)) as [v m2] eqn:EL.
      apply post_via with (cf F (i + zlen (comp_is is))%Z (push_items os s) th1 m1); [apply HC|exact Hv|].
      apply post_done with th1.
      + one. rewrite <- EE, take_push, make_object_literal, EL by assumption. same.
      + pose proof (literal_ok m1 (map (fun ko => (fst ko, val m1 (snd ko))) os) Hm1) as Q. now rewrite EL in Q.
      + assumption.
    - (* EInst *) intros x e IH F i s th m Hs Hm Hc. cbn [comp_e] in *. segs. rewrite eval_eq. cbn [eval1].
      destruct (resolve m (env (ctx_of F)) x) as [c m1] eqn:E.
      assert (Hm1 : mem_ok m1) by (pose proof (resolve_ok m (env (ctx_of F)) x Hm) as Q; now rewrite E in Q).
      goto (cf F (i + 1)%Z (SRef c :: s) th m1).
      { one. rewrite push_var_ctx, E by assumption. reflexivity. }
      eapply post_eval; [apply IH; eauto using clean_le|apply HC|].
      intros o m2 th2 Hm2 Hk2. cbn [length] in Hk2.
      apply post_done with th2; [|assumption|now apply keeps_up].
      one. rewrite instance_of_inst, deref_slot. cbn [deref]. cbn [operand_of val]. rewrite readc_cell. same.
    - (* Enil *) intros F i s th m Hs Hm Hc. rewrite evals_eq. cbn [evals1 flat_es]. 
      apply post_here; auto; [zl|now apply keeps_refl].
    - (* Econs *) intros e IHe es IHs F i s th m Hs Hm Hc. cbn [flat_es] in *. segs. rewrite evals_eq. cbn [evals1].
      eapply post_eval; [apply IHe; eauto|apply HC|]. intros o1 m1 th1 Hm1 Hk1.
      eapply post_eval; [apply IHs; eauto|apply HC|].
      { cbn [length]. eapply clean_le; [eapply keeps_clean, Hk1|lia]. }
      intros os m2 th2 Hm2 Hk2. cbn [length] in Hk2.
      apply post_here; auto; [zl| |now apply keeps_next with th1].
      unfold push_all. cbn [map rev]. now rewrite <- app_assoc.
    - (* Inil *) intros F i s th m Hs Hm Hc. rewrite evali_eq. cbn [evali1 flat_is]. 
      apply post_here; auto; [zl|now apply keeps_refl].
    - (* Icons *) intros k e IHe es IHs F i s th m Hs Hm Hc. cbn [flat_is] in *. segs. rewrite evali_eq. cbn [evali1].
      goto (cf F (i + 1)%Z (SKey k :: s) th m).
      { one. same. }
      eapply post_eval; [apply IHe; eauto using clean_le|apply HC|]. intros o1 m1 th1 Hm1 Hk1. cbn [length] in Hk1.
      assert (Hk1' : keeps th th1 (length s)) by now apply keeps_up.
      assert (Hcl : clean th1 (length s)) by now apply keeps_clean in Hk1'.
      eapply post_eval; [apply IHs; eauto using clean_le|apply HC|].
      intros os m2 th2 Hm2 Hk2. cbn [length] in Hk2.
      apply post_here; auto; [zl|].
      apply keeps_trans with th1; [assumption|].
      apply keeps_up; [assumption|]. apply keeps_up; [|assumption]. eapply clean_le; [eassumption|lia].
Qed.
End Fixed.
End Sim.
