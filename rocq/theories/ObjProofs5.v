(** * Frozen objects *)
From Coq Require Import ZArith List Bool Lia PeanoNat.
Import ListNotations.
Require Import Verif.TreeModel Verif.TreeSpec Verif.ObjModel Verif.ObjSpec Verif.ObjProofs Verif.ObjProofs2 Verif.ObjProofs3 Verif.ObjProofs4.
Local Open Scope nat_scope.

(* what a step that is not Object.freeze of it may do to an object *)
Definition keeps (b b' : obj) : Prop :=
  frz b' = frz b /\ nomod b' = nomod b /\ rdchk b' = rdchk b /\ els b' = els b /\
  (frz b = true -> map ek (props b') = map ek (props b)) /\ (frz b = true -> nomod b = true -> props b' = props b).
Lemma keeps_refl b : keeps b b.
Proof. repeat split. Qed.
Lemma keeps_trans a b c : keeps a b -> keeps b c -> keeps a c.
Proof.
  intros (A1 & A2 & A3 & A4 & A5 & A6) (B1 & B2 & B3 & B4 & B5 & B6). repeat split; try congruence.
  - intros F. rewrite B5 by congruence. auto.
  - intros F N. rewrite B6 by congruence. auto.
Qed.
Definition keeps_obj (s s' : st) (o : nat) : Prop := forall b, nth_error (objs s) o = Some b -> exists b', nth_error (objs s') o = Some b' /\ keeps b b'.
Lemma keeps_obj_refl s o : keeps_obj s s o.
Proof. intros b H. exists b. split; [exact H|apply keeps_refl]. Qed.
Lemma keeps_obj_same s s' o : objs s' = objs s -> keeps_obj s s' o.
Proof. intros E b H. exists b. rewrite E. split; [exact H|apply keeps_refl]. Qed.
Lemma keeps_set_obj s o o' b b' : nth_error (objs s) o = Some b -> keeps b b' -> keeps_obj s (set_obj s o b') o'.
Proof.
  intros E K b0 H. cbn [set_obj objs]. rewrite nth_upd. pose proof (nth_lt _ _ _ E) as L. apply Nat.ltb_lt in L. rewrite L, andb_true_r.
  destruct (Nat.eqb_spec o' o) as [->|N].
  - exists b'. split; [reflexivity|]. congruence.
  - exists b0. split; [exact H|apply keeps_refl].
Qed.
Lemma keeps_app s cs vs b o : keeps_obj s (mkS cs (objs s ++ [b]) vs) o.
Proof. intros b0 H. exists b0. cbn [objs]. split; [|apply keeps_refl]. rewrite nth_error_app1; [exact H|eapply nth_lt; exact H]. Qed.
Lemma keeps_insert s o k c s' r o' : insert s o k c = (s', r) -> keeps_obj s s' o'.
Proof.
  destruct r; intros H; [apply insert_true in H as (b & E & F & ->)|apply insert_false in H as ->; apply keeps_obj_refl].
  eapply keeps_set_obj; [exact E|]. repeat split; cbn [props frz nomod].
  - intros FZ. rewrite FZ in F. cbn [andb] in F. apply orb_false_iff in F as [_ F]. unfold put_ent. destruct (find_key k (props b)); [|discriminate]. apply replace_keys.
  - intros FZ NM. rewrite FZ, NM in F. discriminate.
Qed.
Lemma keeps_assign_all l : forall s o s' r o', assign_all s o l = (s', r) -> keeps_obj s s' o'.
Proof.
  induction l as [|e l IH]; intros s o s' r o' H; cbn [assign_all] in H; [injection H as <- _; apply keeps_obj_refl|].
  destruct (een e); [|eapply IH; exact H]. destruct (insert s o (ek e) (ec e)) as [s1 [|]] eqn:E.
  - pose proof (keeps_insert _ _ _ _ _ _ o' E) as K1. pose proof (IH _ _ _ _ o' H) as K2. intros b B. destruct (K1 b B) as (b1 & B1 & C1).
    destruct (K2 b1 B1) as (b2 & B2 & C2). exists b2. split; [exact B2|]. eapply keeps_trans; eassumption.
  - injection H as <- _. eapply keeps_insert; exact E.
Qed.
Definition freezes (o : nat) (x : op) : bool := match x with OFreeze o' _ _ _ => o' =? o | _ => false end.
Theorem step_keeps s x o : freezes o x = false -> keeps_obj s (fst (step s x)) o.
Proof.
  intros HX.
  assert (K : forall o1 k x, keeps_obj s (fst (ok (assign_key s o1 k x))) o).
  { intros o1 k y. unfold ok. cbn [fst]. destruct (assign_key s o1 k y) as [s' [|]] eqn:E; cbn [fst]; [|apply assign_key_false in E as ->; apply keeps_obj_refl].
    apply assign_key_true in E. apply keeps_insert with (o' := o) in E. exact E. }
  assert (I : forall c g, keeps_obj s (fst (inc_cell s c g)) o) by (intros c g; apply keeps_obj_same; apply inc_cell_rest).
  destruct x as [o1 k e|o1 k f e|o1 k g|o1 k|o1 f m r|p|o1 src|o1 p|o1|l|a i e| |y e|y g]; cbn [step freezes] in *.
  - destruct (eval s e) as [x| |]; cbn [with_val]; [apply K|apply keeps_obj_refl..].
  - destruct (read s o1 k) as [x| |]; cbn [with_val]; [|apply keeps_obj_refl..]. destruct (eval s e) as [y| |]; cbn [with_val]; [|apply keeps_obj_refl..].
    destruct (f x y); [apply K|apply keeps_obj_refl].
  - destruct (nth_error (objs s) o1); [|apply keeps_obj_refl]. destruct (look s o1 k); [apply I|apply keeps_obj_refl..].
  - destruct (nth_error (objs s) o1) as [b|] eqn:E; [|apply keeps_obj_refl]. destruct (frz b) eqn:F; [apply keeps_obj_refl|]. cbn [fst].
    eapply keeps_set_obj; [exact E|]. repeat split; cbn [frz nomod rdchk els props]; congruence.
  - destruct (nth_error (objs s) o1) as [b|] eqn:E; [|apply keeps_obj_refl]. cbn [fst]. apply Nat.eqb_neq in HX.
    assert (X : keeps_obj s (set_obj s o1 (mkO (props b) (proto b) f (negb m) r (els b))) o).
    { intros b0 H. exists b0. split; [|apply keeps_refl]. cbn [set_obj objs]. now rewrite nth_upd_ne by congruence. }
    destruct (Bool.eqb _ _); [exact X|]. intros b0 H. rewrite (proj1 (proj2 (flag_places _ _ _))). now apply X.
  - destruct (match p with Some p => _ | None => true end); [|apply keeps_obj_refl]. apply keeps_app.
  - destruct (nth_error (objs s) o1) as [b0|]; [|apply keeps_obj_refl]. destruct (nth_error (objs s) src) as [b|]; [|apply keeps_obj_refl].
    unfold ok. cbn [fst]. destruct (assign_all s o1 (props b)) as [s' r] eqn:E. cbn [fst]. eapply keeps_assign_all; exact E.
  - destruct (nth_error (objs s) o1) as [b|] eqn:E; [|apply keeps_obj_refl]. destruct (nth_error (objs s) p) as [c|]; [|apply keeps_obj_refl]. cbn [fst].
    eapply keeps_set_obj; [exact E|]. repeat split.
  - destruct (nth_error (objs s) o1) as [b|]; [|apply keeps_obj_refl]. apply keeps_app.
  - apply keeps_app.
  - destruct (eval s e) as [x| |]; cbn [with_val]; [|apply keeps_obj_refl..]. destruct (nth_error (objs s) a) as [b|]; [|apply keeps_obj_refl]. destruct (els b) as [l|]; [|apply keeps_obj_refl].
    destruct (nth_error l i); apply keeps_obj_same; reflexivity.
  - apply keeps_obj_same. reflexivity.
  - destruct (eval s e) as [x| |]; cbn [with_val]; [|apply keeps_obj_refl..]. destruct (nth_error (vars s) y); apply keeps_obj_same; reflexivity.
  - destruct (nth_error (vars s) y); [apply I|apply keeps_obj_refl].
Qed.

(** ** values that cannot change *)
Definition solid (s : st) (o : nat) : Prop := frozen s o = true /\ no_modify s o = true /\
  forall k c, at_place s (PProp o k) = Some c -> snd (get_cell s c) = true /\ forall q, at_place s q = Some c -> match q with PProp _ _ => True | _ => False end.
(* nothing else holds its values *)
Definition private (s : st) (o : nat) : Prop := forall k, apart s (PProp o k).
Lemma inc_cell_keeps s c g d : snd (get_cell s d) = true -> get_cell (fst (inc_cell s c g)) d = get_cell s d.
Proof.
  intros F. unfold inc_cell. destruct (get_cell s c) as [v f] eqn:E. destruct f; [reflexivity|]. destruct (g v) as [v' r]. cbn [fst].
  apply get_set_ne. intros ->. rewrite E in F. discriminate.
Qed.
Lemma place_in_cells s o b c : wf s -> nth_error (objs s) o = Some b -> In c (match els b with Some l => l | None => map ec (props b) end) ->
  (exists i, at_place s (PElem o i) = Some c) \/ (exists k, at_place s (PProp o k) = Some c).
Proof.
  intros W E H. destruct (els b) as [l|] eqn:EL.
  - apply In_nth_error in H as (i & H). left. exists i. cbn [at_place]. now rewrite E, EL.
  - apply in_map_iff in H as (e & <- & H). right. exists (ek e). cbn [at_place]. rewrite E. apply find_key_ent; [|exact H]. eapply wf_keys; eassumption.
Qed.
Definition quiet (s : st) (o : nat) (x : op) : Prop :=
  match x with OValues _ => False | OFreeze o' _ _ _ => o' <> o /\ private s o | _ => True end.
Theorem step_solid s x o : wf s -> solid s o -> quiet s o x -> solid (fst (step s x)) o /\
  forall k, at_place (fst (step s x)) (PProp o k) = at_place s (PProp o k) /\ at_val (fst (step s x)) (PProp o k) = at_val s (PProp o k).
Proof.
  intros W (FZ & NM & SO) HQ.
  assert (HF : freezes o x = false) by (destruct x; try reflexivity; cbn in *; apply Nat.eqb_neq; tauto).
  pose proof (step_keeps s x o HF) as KO. set (s' := fst (step s x)) in *.
  assert (PL : (forall k, at_place s' (PProp o k) = at_place s (PProp o k)) /\ frozen s' o = true /\ no_modify s' o = true).
  { unfold frozen, no_modify in *. cbn [at_place]. destruct (nth_error (objs s) o) as [b|] eqn:E; [|discriminate]. destruct (KO b E) as (b' & -> & K1 & K2 & K3 & K4 & K5 & K6).
    rewrite K6 by assumption. repeat split; congruence. }
  destruct PL as (PL & FZ' & NM').
  assert (CE : forall c, (exists k, at_place s (PProp o k) = Some c) -> get_cell s' c = get_cell s c).
  { intros c (k & HC). destruct (SO k c HC) as [FL NP]. pose proof (place_lt _ _ _ W HC) as LT.
    assert (K : forall o1 k x, get_cell (fst (ok (assign_key s o1 k x))) c = get_cell s c).
    { intros o1 k1 y. unfold ok. cbn [fst]. destruct (assign_key s o1 k1 y) as [s1 [|]] eqn:E; cbn [fst]; [|apply assign_key_false in E as ->; reflexivity].
      apply assign_key_cells in E as (E & _). unfold get_cell. rewrite E. now rewrite nth_error_app1. }
    unfold s'. clear - W HQ FL NP LT K HC.
    destruct x as [o1 k1 e|o1 k1 f e|o1 k1 g|o1 k1|o1 f m r|p|o1 src|o1 p|o1|l|a i e| |y e|y g]; cbn [step quiet] in *; try contradiction.
    - destruct (eval s e) as [x| |]; cbn [with_val]; [apply K|reflexivity..].
    - destruct (read s o1 k1) as [x| |]; cbn [with_val]; [|reflexivity..]. destruct (eval s e) as [y| |]; cbn [with_val]; [|reflexivity..].
      destruct (f x y); [apply K|reflexivity].
    - destruct (nth_error (objs s) o1); [|reflexivity]. destruct (look s o1 k1); [now apply inc_cell_keeps|reflexivity..].
    - destruct (nth_error (objs s) o1) as [b|]; [|reflexivity]. destruct (frz b); reflexivity.
    - destruct HQ as [N PR]. destruct (nth_error (objs s) o1) as [b|] eqn:E; [|reflexivity]. cbn [fst]. destruct (Bool.eqb _ _); [reflexivity|].
      set (cs := match els b with Some l => l | None => map ec (props b) end). set (s1 := set_obj s o1 _).
      pose proof (flag_flags (negb m) cs s1 c) as F1. destruct (flag_places (negb m) cs s1) as (_ & _ & _ & _ & F2). specialize (F2 c).
      destruct (in_dec Nat.eq_dec c cs) as [I|I].
      + exfalso. destruct (place_in_cells s o1 b c W E I) as [(i & X)|(k2 & X)]; [exact (NP _ X)|]. specialize (PR k _ _ HC X). congruence.
      + change (get_cell s1 c) with (get_cell s c) in *. rewrite (surjective_pairing (get_cell s c)), <- F1, <- F2. apply surjective_pairing.
    - destruct (match p with Some p => _ | None => true end); reflexivity.
    - destruct (nth_error (objs s) o1) as [b0|]; [|reflexivity]. destruct (nth_error (objs s) src) as [b|]; [|reflexivity].
      unfold ok. cbn [fst]. destruct (assign_all s o1 (props b)) as [s1 r] eqn:E. cbn [fst]. apply assign_all_places in E as (E & _). unfold get_cell. now rewrite E.
    - destruct (nth_error (objs s) o1) as [b|]; [|reflexivity]. destruct (nth_error (objs s) p) as [c0|]; reflexivity.
    - cbn [fst]. unfold get_cell. cbn [cells]. now rewrite nth_error_app1.
    - destruct (eval s e) as [x| |]; cbn [with_val]; [|reflexivity..]. destruct (nth_error (objs s) a) as [b|] eqn:E; [|reflexivity]. destruct (els b) as [l|] eqn:EL; [|reflexivity].
      destruct (nth_error l i) as [c0|] eqn:EI; [|reflexivity]. cbn [fst]. apply get_set_ne. intros ->. apply (NP (PElem a i)). cbn [at_place]. now rewrite E, EL.
    - cbn [fst]. unfold get_cell. cbn [cells]. now rewrite nth_error_app1.
    - destruct (eval s e) as [x| |]; cbn [with_val]; [|reflexivity..]. destruct (nth_error (vars s) y) as [c0|] eqn:E; [|reflexivity].
      cbn [fst]. apply get_set_ne. intros ->. exact (NP (PVar y) E).
    - destruct (nth_error (vars s) y); [now apply inc_cell_keeps|reflexivity]. }
  split.
  - split; [exact FZ'|]. split; [exact NM'|]. intros k c HC. rewrite PL in HC. destruct (SO k c HC) as [FL NP]. split.
    + rewrite CE by (exists k; exact HC). exact FL.
    + intros q Hq. destruct q as [o' k'|a i|y]; [exact I| |]; exfalso.
      * destruct (sharing x) eqn:SX.
        -- destruct x; try discriminate; [|exact HQ]. unfold s' in Hq. cbn [step] in Hq. destruct (nth_error (objs s) o0) as [b0|]; [|exact (NP _ Hq)].
           destruct (nth_error (objs s) src) as [b|]; [|exact (NP _ Hq)]. unfold ok in Hq. cbn [fst] in Hq. destruct (assign_all s o0 (props b)) as [s1 r] eqn:E. cbn [fst] in Hq.
           apply assign_all_places in E as (_ & _ & _ & _ & E). apply E in Hq as [Hq|(e & _ & _ & Hq)]; [exact (NP _ Hq)|discriminate].
        -- apply (step_plain s x W SX) in Hq as [Hq|[Hq _]]; [exact (NP _ Hq)|]. apply (place_lt _ _ _ W) in HC. lia.
      * destruct (sharing x) eqn:SX.
        -- apply (step_shares s x W SX) in Hq as (q & Hq & ->). exact (NP _ Hq).
        -- apply (step_plain s x W SX) in Hq as [Hq|[Hq _]]; [exact (NP _ Hq)|]. apply (place_lt _ _ _ W) in HC. lia.
  - intros k. split; [apply PL|]. unfold at_val. rewrite PL. destruct (at_place s (PProp o k)) as [c|] eqn:HC; [|reflexivity]. cbn [option_map]. rewrite CE by (exists k; exact HC). reflexivity.
Qed.
(* Object.freeze(o, true, false, r) makes it so *)
Lemma freeze_solid s o b r : wf s -> nth_error (objs s) o = Some b -> els b = None -> nomod b = false ->
  (forall k c a i, at_place s (PProp o k) = Some c -> at_place s (PElem a i) <> Some c) ->
  solid (fst (step s (OFreeze o true false r))) o /\ (forall p, at_place (fst (step s (OFreeze o true false r))) p = at_place s p /\ at_val (fst (step s (OFreeze o true false r))) p = at_val s p).
Proof.
  intros W E EL NM NE. cbn [step]. rewrite E, NM, EL. cbn [negb Bool.eqb fst]. set (s1 := set_obj s o _).
  destruct (flag_places true (map ec (props b)) s1) as (A & B & C & D & F).
  assert (P1 : forall p, at_place s1 p = at_place s p).
  { intros p. unfold s1. erewrite place_set_obj by first [eassumption | now rewrite EL | reflexivity]. destruct p as [o' k|a i|y]; auto.
    destruct (Nat.eqb_spec o' o) as [->|]; [|reflexivity]. cbn. now rewrite E. }
  split.
  - unfold solid, frozen, no_modify. rewrite B. unfold s1 at 1 2. cbn [set_obj objs]. rewrite nth_upd_eq by (eapply nth_lt; exact E).
    repeat split; auto.
    + rewrite flag_flags. rewrite A, P1 in H. pose proof (place_lt _ _ _ W H) as L. apply Nat.ltb_lt in L. change (cells s1) with (cells s). rewrite L.
      destruct (in_dec Nat.eq_dec c (map ec (props b))) as [I|I]; [reflexivity|]. exfalso. apply I. cbn [at_place] in H. rewrite E in H.
      apply find_key_in in H as (e & He & _ & <-). now apply in_map.
    + intros q Hq. rewrite A, P1 in *. destruct q as [o' k'|a i|y]; auto; [eapply NE; eassumption|].
      pose proof (wf_vars s W y _ c Hq H). discriminate.
  - intros p. rewrite A, P1. split; [reflexivity|]. unfold at_val. rewrite A, P1. destruct (at_place s p); [|reflexivity]. cbn [option_map]. rewrite F. reflexivity.
Qed.
