(** * Properties and objects: every history keeps the state well formed; what one step changes *)
From Coq Require Import ZArith List Bool Lia PeanoNat.
Import ListNotations.
Require Import Verif.TreeModel Verif.TreeSpec Verif.ObjModel Verif.ObjSpec Verif.ObjProofs Verif.ObjProofs2.
Local Open Scope nat_scope.

Definition all_objs (P : obj -> Prop) (s : st) : Prop := forall o b, nth_error (objs s) o = Some b -> P b.
Lemma all_set_obj P s o b : all_objs P s -> P b -> all_objs P (set_obj s o b).
Proof.
  intros A B o' b' H. cbn [set_obj objs] in H. rewrite nth_upd in H. destruct ((o' =? o) && (o <? length (objs s))); [congruence|]. eapply A; eassumption.
Qed.
Lemma all_app_obj P cs cs' os vs vs' b : all_objs P (mkS cs os vs) -> P b -> all_objs P (mkS cs' (os ++ [b]) vs').
Proof.
  intros A B o' b' H. cbn [objs] in H. apply nth_app_new in H as [H|[_ ->]]; [eapply A; exact H|exact B].
Qed.
Lemma all_insert (P : obj -> Prop) s o k c s' r : (forall b, P b -> P (mkO (put_ent k c (props b)) (proto b) (frz b) (nomod b) (rdchk b) (els b))) ->
  all_objs P s -> insert s o k c = (s', r) -> all_objs P s'.
Proof.
  intros HP A H. destruct r; [apply insert_true in H as (b & E & _ & ->)|apply insert_false in H as ->; exact A].
  apply all_set_obj; [exact A|]. apply HP. eapply A; eassumption.
Qed.
Lemma all_assign_all (P : obj -> Prop) (Q : key -> Prop) : (forall k c b, Q k -> P b -> P (mkO (put_ent k c (props b)) (proto b) (frz b) (nomod b) (rdchk b) (els b))) ->
  forall l s o s' r, Forall Q (map ek l) -> all_objs P s -> assign_all s o l = (s', r) -> all_objs P s'.
Proof.
  intros HP. induction l as [|e l IH]; intros s o s' r HQ A H; [|inversion HQ as [|? ? HQ1 HQ2]; subst]; cbn [assign_all] in H; [injection H as <- _; exact A|].
  destruct (een e); [|eapply (IH s o s' r); eassumption]. destruct (insert s o (ek e) (ec e)) as [s1 [|]] eqn:E.
  - eapply IH; [exact HQ2| |exact H]. eapply all_insert; [|exact A|exact E]. intros b' Hb. now apply HP.
  - injection H as <- _. eapply all_insert; [|exact A|exact E]. intros b' Hb. now apply HP.
Qed.
(* anything about single objects that the basic changes keep *)
Definition keys_of (x : op) : list key := match x with OSet _ k _ | OUpd _ k _ _ => [k] | _ => [] end.
Lemma all_step (P : obj -> Prop) (Q : key -> Prop) s x : (forall k c b, Q k -> P b -> P (mkO (put_ent k c (props b)) (proto b) (frz b) (nomod b) (rdchk b) (els b))) ->
  (forall k b, P b -> P (mkO (del_ent k (props b)) (proto b) (frz b) (nomod b) (rdchk b) (els b))) ->
  (forall b q f m r, P b -> P (mkO (props b) q f m r (els b))) -> (forall q e, P (mkO [] q false false false e)) ->
  (forall b, P b -> Forall Q (map ek (props b))) -> Forall Q (keys_of x) ->
  all_objs P s -> all_objs P (fst (step s x)).
Proof.
  intros H1 H2 H3 H4 HQ HK A.
  assert (K : forall o k x, Q k -> all_objs P (fst (ok (assign_key s o k x)))).
  { intros o k y QK. unfold ok. cbn [fst]. destruct (assign_key s o k y) as [s' [|]] eqn:E; cbn [fst]; [|apply assign_key_false in E as ->; exact A].
    apply assign_key_true in E. eapply all_insert; [| |exact E]; [intros b' Hb; now apply H1|exact A]. }
  assert (I : forall c g, all_objs P (fst (inc_cell s c g))).
  { intros c g o b H. rewrite (proj1 (inc_cell_rest s c g)) in H. eapply A; exact H. }
  destruct x as [o k e|o k f e|o k g|o k|o f m r|p|o src|o p|o|l|a i e| |y e|y g]; cbn [step].
  - destruct (eval s e) as [x| |]; cbn [with_val]; [apply K; now inversion HK|exact A..].
  - destruct (read s o k) as [x| |]; cbn [with_val]; [|exact A..]. destruct (eval s e) as [y| |]; cbn [with_val]; [|exact A..].
    destruct (f x y); [apply K; now inversion HK|exact A].
  - destruct (nth_error (objs s) o); [|exact A]. destruct (look s o k); [apply I|exact A..].
  - destruct (nth_error (objs s) o) as [b|] eqn:E; [|exact A]. destruct (frz b) eqn:F; [exact A|]. cbn [fst]. rewrite <- F. apply all_set_obj; [exact A|]. apply H2. eapply A; exact E.
  - destruct (nth_error (objs s) o) as [b|] eqn:E; [|exact A]. cbn [fst].
    assert (X : all_objs P (set_obj s o (mkO (props b) (proto b) f (negb m) r (els b)))) by (apply all_set_obj; [exact A|]; apply H3; eapply A; exact E).
    destruct (Bool.eqb _ _); [exact X|]. intros o' b' H. rewrite (proj1 (proj2 (flag_places _ _ _))) in H. eapply X; exact H.
  - destruct (match p with Some p => _ | None => true end); [|exact A]. cbn [fst]. destruct s as [cs os vs]. eapply all_app_obj; [exact A|apply H4].
  - destruct (nth_error (objs s) o) as [b0|]; [|exact A]. destruct (nth_error (objs s) src) as [b|] eqn:ES; [|exact A].
    unfold ok. cbn [fst]. destruct (assign_all s o (props b)) as [s' r] eqn:E. cbn [fst]. eapply all_assign_all; [apply H1| |exact A|exact E]. apply HQ. eapply A; exact ES.
  - destruct (nth_error (objs s) o) as [b|] eqn:E; [|exact A]. destruct (nth_error (objs s) p) as [c|]; [|exact A]. cbn [fst].
    apply all_set_obj; [exact A|]. apply H3. eapply A; exact E.
  - destruct (nth_error (objs s) o) as [b|]; [|exact A]. cbn [fst]. destruct s as [cs os vs]. eapply all_app_obj; [exact A|apply H4].
  - cbn [fst]. destruct s as [cs os vs]. eapply all_app_obj; [exact A|apply H4].
  - destruct (eval s e) as [x| |]; cbn [with_val]; [|exact A..]. destruct (nth_error (objs s) a) as [b|]; [|exact A]. destruct (els b) as [l|]; [|exact A].
    destruct (nth_error l i); exact A.
  - exact A.
  - destruct (eval s e) as [x| |]; cbn [with_val]; [|exact A..]. destruct (nth_error (vars s) y); exact A.
  - destruct (nth_error (vars s) y); [apply I|exact A].
Qed.
(* the prototype after a step *)
Lemma step_parent s x o : parent (fst (step s x)) o = parent s o \/
  (exists p, x = OProto o p /\ (parent (fst (step s x)) o = Some p /\ p < length (objs s) \/ parent (fst (step s x)) o = parent s p)) \/
  (exists p, x = OCreate (Some p) /\ o = length (objs s) /\ parent (fst (step s x)) o = Some p /\ p < length (objs s)).
Proof.
  assert (K : forall o1 k x, parent (fst (ok (assign_key s o1 k x))) o = parent s o).
  { intros o1 k y. unfold ok. cbn [fst]. destruct (assign_key s o1 k y) as [s' [|]] eqn:E; cbn [fst]; [|apply assign_key_false in E as ->; reflexivity].
    apply assign_key_true in E. eapply insert_parent in E. rewrite E. reflexivity. }
  assert (I : forall c g, parent (fst (inc_cell s c g)) o = parent s o).
  { intros c g. unfold parent. now rewrite (proj1 (inc_cell_rest s c g)). }
  assert (N : parent s (length (objs s)) = None).
  { unfold parent. rewrite (proj2 (nth_error_None _ _)) by lia. reflexivity. }
  destruct x as [o1 k e|o1 k f e|o1 k g|o1 k|o1 f m r|p|o1 src|o1 p|o1|l|a i e| |y e|y g]; cbn [step].
  - left. destruct (eval s e) as [x| |]; cbn [with_val]; [apply K|reflexivity..].
  - left. destruct (read s o1 k) as [x| |]; cbn [with_val]; [|reflexivity..]. destruct (eval s e) as [y| |]; cbn [with_val]; [|reflexivity..].
    destruct (f x y); [apply K|reflexivity].
  - left. destruct (nth_error (objs s) o1); [|reflexivity]. destruct (look s o1 k); [apply I|reflexivity..].
  - left. destruct (nth_error (objs s) o1) as [b|] eqn:E; [|reflexivity]. destruct (frz b); [reflexivity|]. cbn [fst]. eapply parent_set_obj_same; [exact E|reflexivity].
  - left. destruct (nth_error (objs s) o1) as [b|] eqn:E; [|reflexivity]. cbn [fst].
    assert (X : parent (set_obj s o1 (mkO (props b) (proto b) f (negb m) r (els b))) o = parent s o) by (eapply parent_set_obj_same; [exact E|reflexivity]).
    destruct (Bool.eqb _ _); [exact X|]. unfold parent. rewrite (proj1 (proj2 (flag_places _ _ _))). exact X.
  - destruct p as [p|]; cbn [fst].
    + destruct (Nat.ltb_spec p (length (objs s))) as [L|L]; [|auto]. cbn [fst]. rewrite parent_app_obj. destruct s as [cs os vs]. cbn [cells objs vars] in *.
      destruct (Nat.eqb_spec o (length os)) as [->|]; [|auto]. right. right. exists p. auto.
    + left. rewrite parent_app_obj. destruct s as [cs os vs]. cbn [cells objs vars] in *. destruct (Nat.eqb_spec o (length os)) as [->|]; [|auto]. cbn. auto.
  - left. destruct (nth_error (objs s) o1) as [b0|]; [|reflexivity]. destruct (nth_error (objs s) src) as [b|]; [|reflexivity].
    unfold ok. cbn [fst]. destruct (assign_all s o1 (props b)) as [s' r] eqn:E. cbn [fst]. apply assign_all_places in E as (_ & _ & _ & E & _). apply E.
  - destruct (nth_error (objs s) o1) as [b|] eqn:E; [|auto]. destruct (nth_error (objs s) p) as [c|] eqn:F; [|auto]. cbn [fst].
    erewrite parent_set_obj by exact E. cbn [proto]. destruct (Nat.eqb_spec o o1) as [->|]; [|auto]. right. left. exists p. split; [reflexivity|].
    destruct (_ && _); [left; split; [reflexivity|eapply nth_lt; exact F]|right]. unfold parent. now rewrite F.
  - left. destruct (nth_error (objs s) o1) as [b|]; [|reflexivity]. cbn [fst]. rewrite parent_app_obj. destruct s as [cs os vs]. cbn [cells objs vars] in *.
    destruct (Nat.eqb_spec o (length os)) as [->|]; [|auto]. cbn. auto.
  - left. cbn [fst]. rewrite parent_app_obj. destruct s as [cs os vs]. cbn [cells objs vars] in *. destruct (Nat.eqb_spec o (length os)) as [->|]; [cbn; auto|reflexivity].
  - left. destruct (eval s e) as [x| |]; cbn [with_val]; [|reflexivity..]. destruct (nth_error (objs s) a) as [b|]; [|reflexivity]. destruct (els b) as [l|]; [|reflexivity].
    destruct (nth_error l i); reflexivity.
  - left. reflexivity.
  - left. destruct (eval s e) as [x| |]; cbn [with_val]; [|reflexivity..]. destruct (nth_error (vars s) y); reflexivity.
  - left. destruct (nth_error (vars s) y); [apply I|reflexivity].
Qed.
Theorem step_wf s x : wf s -> wf (fst (step s x)).
Proof.
  intros W. pose proof (step_cells_grow s x) as [GC GO]. set (s' := fst (step s x)) in *.
  assert (KY : forall o b, nth_error (objs s') o = Some b -> NoDup (map ek (props b))).
  { apply (all_step (fun b => NoDup (map ek (props b))) (fun _ => True)); cbn [props]; auto.
    - intros. now apply put_ent_nodup.
    - intros. now apply del_ent_nodup.
    - intros. constructor.
    - intros b _. apply Forall_forall. auto.
    - apply Forall_forall. auto.
    - exact (wf_keys s W). }
  assert (PR : forall o p, parent s' o = Some p -> p < length (objs s')).
  { intros o p H. destruct (step_parent s x o) as [E|[(q & -> & [[E L]|E])|(q & -> & _ & E & L)]]; fold s' in E; rewrite E in H.
    - apply (wf_proto s W) in H. lia.
    - injection H as <-. lia.
    - apply (wf_proto s W) in H. lia.
    - injection H as <-. lia. }
  destruct (sharing x) eqn:HX.
  - pose proof (step_shares s x W HX) as SH. fold s' in SH. constructor; auto.
    + intros p c H. apply SH in H as (q & H & _). apply (wf_cell s W) in H. lia.
    + intros y q c H1 H2. apply SH in H1 as (q1 & H1 & ->). apply SH in H2 as (q2 & H2 & Q).
      pose proof (wf_vars s W y q2 c H1 H2) as ->. destruct q; try contradiction. congruence.
  - pose proof (step_plain s x W HX) as PL. fold s' in PL. constructor; auto.
    + intros p c H. apply PL in H as [H|[H _]]; [apply (wf_cell s W) in H; lia|lia].
    + intros y q c H1 H2. pose proof H2 as H2'. apply PL in H1 as [H1|[_ H1]]; [|now apply H1].
      apply PL in H2 as [H2|[H2 _]]; [now apply (wf_vars s W y q c)|]. apply (wf_cell s W) in H1. lia.
Qed.
Theorem run_wf l s : wf s -> wf (run s l).
Proof. revert s. induction l as [|x l IH]; intros s W; [exact W|]. cbn [run fold_left]. apply IH. now apply step_wf. Qed.
Lemma start_wf : wf start.
Proof.
  constructor.
  - intros [o k|a i|y] c H; cbn in H; [destruct o|destruct a|destruct y]; discriminate.
  - intros [|o] b H; discriminate.
  - intros y q c H. cbn in H. destruct y; discriminate.
  - intros [|o] p H; discriminate.
Qed.
(** Without Object.assign and Object.values no value is held twice. *)
Theorem step_apart s x : wf s -> sharing x = false -> (forall p, apart s p) -> forall p, apart (fst (step s x)) p.
Proof.
  intros W HX A p q c H1 H2. pose proof (step_plain s x W HX) as PL. pose proof H2 as H2'. apply PL in H1 as [H1|[_ H1]]; [|now apply H1].
  apply PL in H2 as [H2|[H2 _]]; [now apply (A p q c)|]. apply (wf_cell s W) in H1. lia.
Qed.
Theorem run_apart l s : wf s -> existsb sharing l = false -> (forall p, apart s p) -> forall p, apart (run s l) p.
Proof.
  revert s. induction l as [|x l IH]; intros s W HX A; [exact A|]. cbn [existsb] in HX. apply orb_false_iff in HX as [H1 H2].
  cbn [run fold_left]. apply IH; [now apply step_wf|assumption|]. now apply step_apart.
Qed.
Lemma start_apart p : apart start p.
Proof. intros q c H. destruct p as [[|o] k|[|a] i|[|y]]; discriminate. Qed.
