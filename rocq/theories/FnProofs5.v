(** * Invariants of the specification's interpreter, once and for all *)
Require Import ZArith List Bool Lia.
Import ListNotations.
Require Import Verif.FnModel Verif.FnSpec Verif.FnSpec2 Verif.FnProofs Verif.FnProofs2 Verif.FnProofs3.
Local Open Scope nat_scope.

Section Inv.
Context {PS : psys}.
Notation V := (value (prim PS)).
Notation vundef := (VPrim (undef PS)).
Notation mem := (@mem PS).
Notation expr := (@expr PS).
Notation exprs := (@exprs PS).
Notation items := (@items PS).
Notation stmt := (@stmt PS).
Notation fundef := (@fundef PS).
Notation operand := (@operand PS).
Notation res := (@res PS).
Notation completion := (@completion PS).

(* memory when the body of a function starts *)
Definition entry_mem (isnew : bool) (a : nat) (f : fundef) (vs : list V) (m : mem) : mem :=
  let m1 := add_obj (add_cells m vs) (mkobj [] None None) in
  let m2 := if isnew then add_obj m1 (mkobj [] (Some (proto_for m1 a)) None) else m1 in
  with_locals (with_params m2 (length (cells m)) (length (objs m)) f vs) (length (objs m)) f.
Definition closure_at (m : mem) (a : nat) (f : fundef) (sc : list nat) : Prop :=
  exists o, obj_at m a = Some o /\ fn o = Some (f, sc).

Variable I : mem -> Prop.
Variable T : mem -> mem -> Prop.
Variable Pm : mem -> list nat -> list name -> list fundef -> Prop.
Variable W : nat -> Prop.
Variable allowed : Prop.

Record good := {
  g_refl : forall m, T m m;
  g_trans : forall a b c, T a b -> T b c -> T a c;
  g_sub : forall m en xs fs xs' fs', Pm m en xs fs -> incl xs' xs -> incl fs' fs -> Pm m en xs' fs';
  g_keep : forall m m' en xs fs, I m -> I m' -> T m m' -> Pm m en xs fs -> Pm m' en xs fs;
  g_recv : forall m v t m', I m -> receiver m v = Some (t, m') -> I m' /\ T m m';
  g_set : forall m a k v, I m -> k <> prototype -> I (set_prop m a k v) /\ T m (set_prop m a k v);
  g_lit : forall m kvs, I m -> I (snd (literal m kvs)) /\ T m (snd (literal m kvs));
  g_res : forall m en y, I m -> Pm m en [] [] -> I (snd (resolve m en y)) /\ T m (snd (resolve m en y));
  g_tgt : forall m en y, I m -> Pm m en [y] [] -> W (fst (resolve m en y));
  g_write : forall m a v, I m -> W a -> I (writec m a v) /\ T m (writec m a v);
  g_clo : forall m en f, I m -> Pm m en [] (funs_f f) -> I (snd (closure m en f)) /\ T m (snd (closure m en f));
  g_enter : allowed -> forall m isnew a f sc vs, I m -> closure_at m a f sc ->
     I (entry_mem isnew a f vs m) /\ T m (entry_mem isnew a f vs m) /\
     Pm (entry_mem isnew a f vs m) (length (objs m) :: rev sc) (asg_s (body f)) (funs_s (body f))
}.
Hypothesis G : good.

Definition keepsI {A} (m : mem) (r : res A) : Prop :=
  match r with Ok _ m' => I m' /\ T m m' | _ => True end.
Lemma keeps_bind {A B} m (r : res A) (k : A -> mem -> res B) :
  keepsI m r -> (forall a m1, I m1 -> T m m1 -> keepsI m1 (k a m1)) -> keepsI m (FnSpec.bind r k).
Proof.
  intros Hr Hk. destruct r as [a m1|m1| |]; cbn in *; auto. destruct Hr as [Hi Ht].
  specialize (Hk a m1 Hi Ht). destruct (k a m1) as [b m2|m2| |]; cbn in *; auto.
  destruct Hk. split; [assumption|]. now apply (g_trans G) with m1.
Qed.
Lemma keeps_from {A} m m1 (r : res A) : T m m1 -> keepsI m1 r -> keepsI m r.
Proof. intros Ht. destruct r; cbn; auto. intros [Hi H]. split; [assumption|]. now apply (g_trans G) with m1. Qed.
Lemma keeps_ok {A} (a : A) m : I m -> keepsI m (Ok a m).
Proof. intros H. split; [assumption|apply (g_refl G)]. Qed.
Lemma keeps_now {A} (a : A) m m' : I m' -> T m m' -> keepsI m (Ok a m').
Proof. now split. Qed.

Section Callf.
Variable late : bool.
Variable callf : bool -> option V -> V -> list V -> V -> nat -> mem -> res V.
Hypothesis Hcf : allowed -> forall b r v vs t d m, I m -> keepsI m (callf b r v vs t d m).

Ltac inc := let z := fresh in intros z; cbn [In]; rewrite ?in_app_iff; cbn [In]; tauto.
Ltac sub := eapply (g_sub G); [eassumption| |]; inc.
Ltac subk := eapply (g_sub G); [eapply (g_keep G); [| |eassumption|eassumption]; assumption| |]; inc.

Definition inv_e (e : expr) : Prop := forall c m,
  I m -> Pm m (env c) (asg_e e) (funs_e e) -> (calls_e e = true -> allowed) -> keepsI m (eval late callf c e m).
Definition inv_es (es : exprs) : Prop := forall c m,
  I m -> Pm m (env c) (asg_es es) (funs_es es) -> (calls_es es = true -> allowed) -> keepsI m (evals late callf c es m).
Definition inv_is (is : items) : Prop := forall c m,
  I m -> Pm m (env c) (asg_is is) (funs_is is) -> (calls_is is = true -> allowed) -> keepsI m (evali late callf c is m).

Ltac orb := let H := fresh in intros H; match goal with Hc : _ -> allowed |- allowed => apply Hc; rewrite ?H, ?orb_true_r; reflexivity end.
Lemma Pm_keep m m' en xs fs : I m -> I m' -> T m m' -> Pm m en xs fs -> Pm m' en xs fs.
Proof. apply (g_keep G). Qed.

Lemma inv_expr : (forall e, inv_e e) /\ (forall es, inv_es es) /\ (forall is, inv_is is).
Proof.
  assert (HA : (forall e, inv_e e) /\ (forall es, inv_es es) /\ (forall is, inv_is is) /\ (forall s : stmt, True) /\ (forall f : fundef, True)).
  2:{ tauto. }
  apply (fn_mut PS inv_e inv_es inv_is (fun _ => True) (fun _ => True)); auto.
  - (* ECon *) intros p c m Hi Hp Ha. rewrite eval_eq. cbn [eval1]. now apply keeps_ok.
  - (* EVar *) intros x c m Hi Hp Ha. rewrite eval_eq. cbn [eval1].
    destruct (resolve m (env c) x) as [a m1] eqn:E.
    destruct (g_res G m (env c) x Hi) as [H1 H2]; [sub|]. rewrite E in H1, H2. now apply keeps_now.
  - (* EThis *) intros c m Hi Hp Ha. rewrite eval_eq. cbn [eval1]. now apply keeps_ok.
  - (* EAsg *) intros x e IH c m Hi Hp Ha. rewrite eval_eq. cbn [eval1]. cbn [asg_e funs_e calls_e] in Hp, Ha.
    destruct (resolve m (env c) x) as [a m1] eqn:E.
    destruct (g_res G m (env c) x Hi) as [H1 H2]; [sub|]. rewrite E in H1, H2. cbn [snd] in H1, H2.
    assert (HW : W a) by (replace a with (fst (resolve m (env c) x)) by (now rewrite E); apply (g_tgt G); [assumption|sub]).
    apply keeps_from with m1; [assumption|]. apply keeps_bind; [apply IH; auto; subk|].
    intros o m2 Hi2 Ht2. destruct (g_write G m2 a (val m2 o) Hi2 HW). now apply keeps_now.
  - (* EUn *) intros u e IH c m Hi Hp Ha. rewrite eval_eq. cbn [eval1].
    apply keeps_bind; [apply IH; auto|]. intros o m1 Hi1 Ht1.
    destruct (un_sem PS u (val m1 o)); [now apply keeps_ok|exact Logic.I].
  - (* EBin *) intros o x IHx y IHy c m Hi Hp Ha. rewrite eval_eq. cbn [eval1]. cbn [asg_e funs_e calls_e] in Hp, Ha.
    apply keeps_bind; [apply IHx; auto; [sub|orb]|]. intros o1 m1 Hi1 Ht1.
    apply keeps_bind; [apply IHy; auto; [subk|orb]|]. intros o2 m2 Hi2 Ht2.
    destruct (bin_sem PS o (val m2 o1) (val m2 o2)); [now apply keeps_ok|exact Logic.I].
  - (* EAnd *) intros x IHx y IHy c m Hi Hp Ha. rewrite eval_eq. cbn [eval1]. cbn [asg_e funs_e calls_e] in Hp, Ha.
    apply keeps_bind; [apply IHx; auto; [sub|orb]|]. intros o1 m1 Hi1 Ht1.
    destruct (truth PS (val m1 o1)); [apply IHy; auto; [subk|orb]|now apply keeps_ok].
  - (* EOr *) intros x IHx y IHy c m Hi Hp Ha. rewrite eval_eq. cbn [eval1]. cbn [asg_e funs_e calls_e] in Hp, Ha.
    apply keeps_bind; [apply IHx; auto; [sub|orb]|]. intros o1 m1 Hi1 Ht1.
    destruct (truth PS (val m1 o1)); [now apply keeps_ok|apply IHy; auto; [subk|orb]].
  - (* ECond *) intros x IHx y IHy z IHz c m Hi Hp Ha. rewrite eval_eq. cbn [eval1]. cbn [asg_e funs_e calls_e] in Hp, Ha.
    apply keeps_bind; [apply IHx; auto; [sub|orb]|]. intros o1 m1 Hi1 Ht1.
    destruct (truth PS (val m1 o1)); [apply IHy|apply IHz]; auto; try subk; orb.
  - (* EComma *) intros x IHx y IHy c m Hi Hp Ha. rewrite eval_eq. cbn [eval1]. cbn [asg_e funs_e calls_e] in Hp, Ha.
    apply keeps_bind; [apply IHx; auto; [sub|orb]|]. intros o1 m1 Hi1 Ht1. apply IHy; auto; [subk|orb].
  - (* EVoid *) intros x IHx c m Hi Hp Ha. rewrite eval_eq. cbn [eval1].
    apply keeps_bind; [apply IHx; auto|]. intros o1 m1 Hi1 Ht1. now apply keeps_ok.
  - (* EFun *) intros f _ c m Hi Hp Ha. rewrite eval_eq. cbn [eval1].
    destruct (closure m (env c) f) as [v m1] eqn:E.
    destruct (g_clo G m (env c) f Hi) as [H1 H2]; [exact Hp|]. rewrite E in H1, H2. now apply keeps_now.
  - (* ECall *) intros e IHe es IHs c m Hi Hp Ha. rewrite eval_eq. cbn [eval1]. 
    change (Pm m (env c) (asg_e e ++ asg_es es) (funs_e e ++ funs_es es)) in Hp. specialize (Ha eq_refl).
    apply keeps_bind; [apply IHe; auto; sub|]. intros o1 m1 Hi1 Ht1.
    apply keeps_bind; [apply IHs; auto; subk|]. intros os m2 Hi2 Ht2.
    apply keeps_bind; [apply Hcf; auto|]. intros v m3 Hi3 Ht3. now apply keeps_ok.
  - (* EMeth *) intros e IHe k es IHs c m Hi Hp Ha. rewrite eval_eq. cbn [eval1].
    change (Pm m (env c) (asg_e e ++ asg_es es) (funs_e e ++ funs_es es)) in Hp. specialize (Ha eq_refl).
    apply keeps_bind; [apply IHe; auto; sub|]. intros o1 m1 Hi1 Ht1.
    destruct (receiver m1 (val m1 o1)) as [[t m2]|] eqn:E; [|exact Logic.I].
    destruct (g_recv G _ _ _ _ Hi1 E) as [Hi2 Ht2].
    destruct (member m2 (val m1 o1) k); [|exact Logic.I].
    apply keeps_from with m2; [assumption|].
    assert (Ht02 : T m m2) by (eapply (g_trans G); eassumption).
    apply keeps_bind; [apply IHs; auto; eapply (g_sub G); [exact (Pm_keep m m2 _ _ _ Hi Hi2 Ht02 Hp)| |]; inc|]. intros os m3 Hi3 Ht3.
    apply keeps_bind; [apply Hcf; auto|]. intros w m4 Hi4 Ht4. now apply keeps_ok.
  - (* ENew *) intros e IHe es IHs c m Hi Hp Ha. rewrite eval_eq. cbn [eval1].
    change (Pm m (env c) (asg_e e ++ asg_es es) (funs_e e ++ funs_es es)) in Hp. specialize (Ha eq_refl).
    apply keeps_bind; [apply IHe; auto; sub|]. intros o1 m1 Hi1 Ht1.
    apply keeps_bind; [apply IHs; auto; subk|]. intros os m2 Hi2 Ht2.
    apply keeps_bind; [apply Hcf; auto|]. intros v m3 Hi3 Ht3. now apply keeps_ok.
  - (* EGet *) intros e IH k c m Hi Hp Ha. rewrite eval_eq. cbn [eval1].
    apply keeps_bind; [apply IH; auto|]. intros o m1 Hi1 Ht1.
    destruct (member m1 (val m1 o) k); [now apply keeps_ok|exact Logic.I].
  - (* ESet *) intros x IHx k y IHy c m Hi Hp Ha. rewrite eval_eq. cbn [eval1]. cbn [asg_e funs_e calls_e] in Hp, Ha.
    apply keeps_bind; [apply IHx; auto; [sub|orb]|]. intros o1 m1 Hi1 Ht1.
    apply keeps_bind; [apply IHy; auto; [subk|orb]|]. intros o2 m2 Hi2 Ht2.
    destruct (set_member m2 (val m2 o1) k (val m2 o2)) as [m3|] eqn:E; [|exact Logic.I].
    unfold set_member in E. destruct (val m2 o1) as [q|a]; [discriminate|].
    destruct (Nat.eqb_spec k prototype) as [|Hk]; [discriminate|]. injection E as <-.
    destruct (g_set G m2 a k (val m2 o2) Hi2 Hk). now apply keeps_now.
  - (* EObj *) intros is IH c m Hi Hp Ha. rewrite eval_eq. cbn [eval1].
    apply keeps_bind; [apply IH; auto|]. intros kos m1 Hi1 Ht1.
    destruct (literal m1 (map (fun ko => (fst ko, val m1 (snd ko))) kos)) as [v m2] eqn:E.
    destruct (g_lit G m1 (map (fun ko => (fst ko, val m1 (snd ko))) kos) Hi1) as [H1 H2]. rewrite E in H1, H2. now apply keeps_now.
  - (* EInst *) intros x e IH c m Hi Hp Ha. rewrite eval_eq. cbn [eval1]. cbn [asg_e funs_e calls_e] in Hp, Ha.
    destruct (resolve m (env c) x) as [a m1] eqn:E.
    destruct (g_res G m (env c) x Hi) as [H1 H2]; [sub|]. rewrite E in H1, H2. cbn [snd] in H1, H2.
    apply keeps_from with m1; [assumption|]. apply keeps_bind; [apply IH; auto; subk|].
    intros o m2 Hi2 Ht2. now apply keeps_ok.
  - (* Enil *) intros c m Hi Hp Ha. rewrite evals_eq. cbn [evals1]. now apply keeps_ok.
  - (* Econs *) intros e IHe es IHs c m Hi Hp Ha. rewrite evals_eq. cbn [evals1]. 
    change (Pm m (env c) (asg_e e ++ asg_es es) (funs_e e ++ funs_es es)) in Hp.
    change (calls_e e || calls_es es = true -> allowed) in Ha.
    apply keeps_bind; [apply IHe; auto; [sub|orb]|]. intros o1 m1 Hi1 Ht1.
    apply keeps_bind; [apply IHs; auto; [subk|orb]|]. intros os m2 Hi2 Ht2. now apply keeps_ok.
  - (* Inil *) intros c m Hi Hp Ha. rewrite evali_eq. cbn [evali1]. now apply keeps_ok.
  - (* Icons *) intros k e IHe es IHs c m Hi Hp Ha. rewrite evali_eq. cbn [evali1]. 
    change (Pm m (env c) (asg_e e ++ asg_is es) (funs_e e ++ funs_is es)) in Hp.
    change (calls_e e || calls_is es = true -> allowed) in Ha.
    apply keeps_bind; [apply IHe; auto; [sub|orb]|]. intros o1 m1 Hi1 Ht1.
    apply keeps_bind; [apply IHs; auto; [subk|orb]|]. intros os m2 Hi2 Ht2. now apply keeps_ok.
Qed.

Variable loops : nat.
Hypothesis Hal : allowed.
Definition inv_s (st : stmt) : Prop := forall c m,
  I m -> Pm m (env c) (asg_s st) (funs_s st) -> keepsI m (exec late callf loops c st m).

Lemma inv_test e c m : I m -> Pm m (env c) (asg_e e) (funs_e e) -> keepsI m (test late callf c e m).
Proof.
  intros Hi Hp. unfold test. apply keeps_bind; [apply (proj1 inv_expr); auto|]. intros o m1 H1 H2. now apply keeps_ok.
Qed.
Lemma inv_loop e a c : inv_s a -> forall k m, I m -> Pm m (env c) (asg_e e ++ asg_s a) (funs_e e ++ funs_s a) ->
  keepsI m (loop k (test late callf c e) (exec late callf loops c a) m).
Proof.
  intros IHa. induction k as [|k IHk]; intros m Hi Hp; [exact Logic.I|]. cbn [loop].
  apply keeps_bind; [apply inv_test; auto; sub|]. intros b m1 Hi1 Ht1.
  destruct b; [|now apply keeps_ok].
  apply keeps_bind; [apply IHa; auto; subk|]. intros r m2 Hi2 Ht2.
  destruct r; [|now apply keeps_ok]. apply IHk; [assumption|].
  apply Pm_keep with m; auto. now apply (g_trans G) with m1.
Qed.
Lemma inv_stmt : forall st, inv_s st.
Proof.
  pose proof (proj1 inv_expr) as HE.
  assert (HX : forall e c m, I m -> Pm m (env c) (asg_e e) (funs_e e) -> keepsI m (eval late callf c e m)) by (intros; apply HE; auto).
  apply (stmt_mut PS (fun _ => True) (fun _ => True) (fun _ => True) inv_s (fun _ => True)); auto.
  - intros c m Hi Hp. now apply keeps_ok.
  - intros e _ c m Hi Hp. cbn [exec]. apply keeps_bind; [now apply HX|]. intros o m1 H1 H2. now apply keeps_ok.
  - intros a IHa b IHb c m Hi Hp. cbn [exec asg_s funs_s] in *.
    change (funs_s (SSeq a b)) with (funs_s a ++ funs_s b) in Hp.
    apply keeps_bind; [apply IHa; auto; sub|]. intros r m1 H1 H2.
    destruct r; [apply IHb; auto; subk|now apply keeps_ok].
  - intros x e _ c m Hi Hp. cbn [exec asg_s] in *. change (funs_s (SVar x e)) with (funs_e e) in Hp.
    destruct (resolve m (env c) x) as [a m1] eqn:E.
    destruct (g_res G m (env c) x Hi) as [H1 H2]; [sub|]. rewrite E in H1, H2. cbn [snd] in H1, H2.
    assert (HW : W a) by (replace a with (fst (resolve m (env c) x)) by (now rewrite E); apply (g_tgt G); [assumption|sub]).
    apply keeps_from with m1; [assumption|]. apply keeps_bind; [apply HX; auto; subk|].
    intros o m2 Hi2 Ht2. destruct (g_write G m2 a (val m2 o) Hi2 HW). now apply keeps_now.
  - intros x c m Hi Hp. cbn [exec asg_s] in *.
    destruct (resolve m (env c) x) as [a m1] eqn:E.
    destruct (g_res G m (env c) x Hi) as [H1 H2]; [sub|]. rewrite E in H1, H2. cbn [snd] in H1, H2.
    assert (HW : W a) by (replace a with (fst (resolve m (env c) x)) by (now rewrite E); apply (g_tgt G); [assumption|sub]).
    destruct (g_write G m1 a vundef H1 HW). apply keeps_from with m1; [assumption|]. now apply keeps_now.
  - intros x f _ c m Hi Hp. cbn [exec asg_s] in *. change (funs_s (SFun x f)) with (funs_f f) in Hp.
    destruct (resolve m (env c) x) as [a m1] eqn:E.
    destruct (g_res G m (env c) x Hi) as [H1 H2]; [sub|]. rewrite E in H1, H2. cbn [snd] in H1, H2.
    assert (HW : W a) by (replace a with (fst (resolve m (env c) x)) by (now rewrite E); apply (g_tgt G); [assumption|sub]).
    apply keeps_from with m1; [assumption|].
    destruct (closure m1 (env c) f) as [v m2] eqn:E2.
    destruct (g_clo G m1 (env c) f H1) as [H3 H4]; [subk|]. rewrite E2 in H3, H4. cbn [snd] in H3, H4.
    apply keeps_from with m2; [assumption|].
    destruct (g_write G m2 a v H3 HW). now apply keeps_now.
  - intros e _ a IHa c m Hi Hp. cbn [exec asg_s] in *. change (funs_s (SIf e a)) with (funs_e e ++ funs_s a) in Hp.
    apply keeps_bind; [apply inv_test; auto; sub|]. intros b m1 H1 H2.
    destruct b; [apply IHa; auto; subk|now apply keeps_ok].
  - intros e _ a IHa b IHb c m Hi Hp. cbn [exec asg_s] in *. change (funs_s (SIfElse e a b)) with (funs_e e ++ funs_s a ++ funs_s b) in Hp.
    apply keeps_bind; [apply inv_test; auto; sub|]. intros t m1 H1 H2.
    destruct t; [apply IHa|apply IHb]; auto; subk.
  - intros e _ a IHa c m Hi Hp. cbn [exec]. apply inv_loop; auto.
  - intros e _ c m Hi Hp. cbn [exec]. apply keeps_bind; [now apply HX|]. intros o m1 H1 H2. now apply keeps_ok.
  - intros c m Hi Hp. now apply keeps_ok.
Qed.
End Callf.

Lemma inv_call late n : allowed -> forall b r v vs t d m, I m -> keepsI m (call late n b r v vs t d m).
Proof.
  intros Hal. induction n as [|n IH]; intros b r v vs t d m Hi; [exact Logic.I|]. cbn [call].
  destruct v as [p|a]; [exact Logic.I|].
  set (m1 := add_obj (add_cells m vs) (mkobj [] None None)).
  destruct (obj_at m1 a) as [[pr po [[f sc]|]]|] eqn:EO; try exact Logic.I.
  destruct (is_arrow f && _); [exact Logic.I|].
  destruct (args_bad PS (params f) vs); [exact Logic.I|].
  destruct (match max_depth PS with Some k => _ | None => _ end); [exact Logic.I|].
  assert (HC : closure_at m a f sc).
  { unfold closure_at. exists (mkobj pr po (Some (f, sc))). split; [|reflexivity].
    unfold obj_at, m1 in EO. cbn [add_obj add_cells objs] in EO.
    destruct (Nat.lt_ge_cases a (length (objs m))) as [H|H].
    - now rewrite nth_error_app1 in EO by assumption.
    - rewrite nth_error_app2 in EO by assumption. destruct (a - length (objs m)) as [|[|]]; discriminate EO. }
  destruct (g_enter G Hal m b a f sc vs Hi HC) as (H1 & H2 & H3). unfold entry_mem in *. fold m1 in H1, H2, H3 |- *.
  apply keeps_from with (2 := keeps_bind _ _ _ (inv_stmt late (call late n) (fun _ => IH) n Hal (body f)
    (mkctx (length (objs m) :: rev sc) _ (S d)) _ H1 H3) (fun k m5 H5 _ => keeps_ok _ m5 H5)).
  exact H2.
Qed.
Lemma inv_program late n p v m : allowed -> I mem0 -> Pm mem0 [0] (asg_s p) (funs_s p) ->
  program late n p = Ok v m -> I m /\ T mem0 m.
Proof.
  intros Hal Hi Hp H.
  pose proof (inv_stmt late (call late n) (inv_call late n) n Hal p (mkctx [0] (VObj 0) 1) mem0 Hi Hp) as K.
  unfold program in H. destruct (exec late (call late n) n (mkctx [0] (VObj 0) 1) p mem0); cbn in H; try discriminate.
  injection H as <- <-. exact K.
Qed.
End Inv.
