(** * C72: array methods that call a function, with functions that do anything *)
From Coq Require Import ZArith List Bool Lia.
Import ListNotations.
Require Import Verif.Bits Verif.ArrayModel Verif.ArraySpec Verif.ArrayProofs Verif.ArrayProofs2 Verif.ArrayProofs3 Verif.ArrayProofs5
  Verif.HofModel Verif.HofSpec Verif.HofProofs Verif.HofProofs2.
Local Open Scope nat_scope.

Section P.
Context {C St : Type}.
Variable u : C.
Variable truth : C -> bool.
Variable M : nat.
Notation world := (world C St).
Notation callback := (callback C St).

(** Whatever a function of a script does to the array (and to its parameter, and to everything else), it is tame. *)
Theorem script_functions_tame (g : St -> C -> nat -> St * option C * list (call C) * option C) : tame M (script_fun M u g).
Proof.
  intros w p i [(es & R & O) L]. unfold script_fun. destruct (g (st w) (nth p (hp w) u) i) as [[[s' x] ks] r].
  set (h := match x with Some c => wr C (hp w) p c | None => hp w end).
  assert (LH : length (hp w) <= length h) by (unfold h; destruct x; [apply wr_l|auto]).
  assert (I : inv C h (ar w)).
  { exists es. split; [exact R|]. destruct O as [O1 O2]. split; [exact O1|]. eapply Forall_impl; [|exact O2]. cbn. intros q Hq. lia. }
  destruct (do_calls_inv C u M ks h (ar w) I) as (h' & a' & E & I'). rewrite E. cbn [fst]. cbv zeta.
  apply calls_blk in E as [[B1 B2] B3]. repeat split; cbn [ar hp st]; auto; lia.
Qed.

(** map: for each position of the array as it was at the start, in order, the function is called once if there is an element when its
    turn comes; no position outside the block is ever read, whatever the function does. *)
Theorem map_any_function (f : callback) w : good M w -> tame M f -> len w + 17 <= M -> HofModel.map_cmd C M St f w = Some (spec_map f w).
Proof. intros. now apply map_cmd_visit. Qed.
Theorem filter_any_function (f : callback) w : good M w -> tame M f -> len w + 17 <= M ->
  HofModel.filter_cmd C truth M St f w =
  Some (fst (spec_filter truth f w), match snd (spec_filter truth f w) with HDone l => HDone (map Some l) | HErr => HErr end).
Proof. intros. now apply filter_cmd_visit. Qed.
Definition some_result (r : world * hres C) : option (world * hres (option C)) :=
  Some (fst r, match snd r with HDone c => HDone (Some c) | HErr => HErr end).
Theorem reduce_any_function (f : callback2 C St) c w : good M w -> (forall acc, tame M (fun w p i => f w acc p i)) ->
  HofModel.reduce_cmd C u St false f (Some c) w = some_result (spec_reduce f (seq 0 (len w)) c w) /\
  HofModel.reduce_cmd C u St true f (Some c) w = some_result (spec_reduce f (rev (seq 0 (len w))) c w).
Proof.
  intros G HT. unfold HofModel.reduce_cmd, spec_reduce, outcome, some_result. pose proof (len_block M w G). unfold len in *. split.
  - rewrite (reduce_up u M f HT) by (auto; lia). destruct (visit _ _ _ _) as [w' [x|]]; reflexivity.
  - rewrite (reduce_down u M f HT) by (auto; lia). destruct (visit _ _ _ _) as [w' [x|]]; reflexivity.
Qed.
(** Without a start value the first element is it (if there is one at the end where the walk begins). *)
Theorem reduce_from_first (f : callback2 C St) w p : good M w -> (forall acc, tame M (fun w p i => f w acc p i)) ->
  (elem_at w 0 = Some p ->
   HofModel.reduce_cmd C u St false f None w = some_result (spec_reduce f (seq 1 (len w - 1)) (nth p (hp w) u) w)) /\
  (elem_at w (len w - 1) = Some p ->
   HofModel.reduce_cmd C u St true f None w = some_result (spec_reduce f (rev (seq 0 (len w - 1))) (nth p (hp w) u) w)).
Proof.
  intros G HT. unfold HofModel.reduce_cmd, spec_reduce, outcome, some_result. pose proof (len_block M w G) as LB. split; intros E.
  - pose proof (elem_lt w 0 p E) as L0. unfold len in *. destruct (cnt (ar w)) as [|n] eqn:N; [lia|]. cbn [reduce_loop].
    rewrite (read_elem M) by (auto; lia). rewrite E. cbn [Nat.eqb andb]. rewrite (reduce_up u M f HT) by (auto; lia).
    replace (S n - 1) with n by lia. unfold rd. destruct (visit _ _ _ _) as [w' [x|]]; reflexivity.
  - pose proof (elem_lt w _ p E) as L0. unfold len in *. destruct (cnt (ar w)) as [|n] eqn:N; [lia|]. cbn [reduce_loop].
    rewrite (read_elem M) by (auto; lia). rewrite E. cbn [Nat.eqb andb]. replace (S n - 1) with n by lia.
    rewrite (reduce_down u M f HT) by (auto; lia). unfold rd. destruct (visit _ _ _ _) as [w' [x|]]; reflexivity.
Qed.
(** forEach, find, findIndex, some and every walk up to the present end; they always end. *)
Theorem foreach_any_function (f : callback) w : good M w -> tame M f -> exists w' e, walk (fun _ => false) f 0 None w w' e /\
  foreach_cmd C u M St f w = Some (Some (w', match e with Failed => HErr | Stopped _ c => HDone c | Finished (Some c) => HDone c | Finished None => HDone u end)).
Proof.
  intros G HT. destruct (walk_find M (fun _ => false) f HT (S M) 0 None w G ltac:(lia)) as (w' & e & W). exists w', e. split; [exact W|].
  unfold foreach_cmd. apply (walk_foreach u M f 0 None w w' e HT W G (S M)); try lia. reflexivity.
Qed.
Theorem find_any_function (f : callback) w : good M w -> tame M f -> exists w' e, walk truth f 0 None w w' e /\
  find_cmd C u truth M St f w = Some (Some (w', match e with
     | Failed => HErr
     | Stopped i _ => HDone (match elem_at w' i with Some p => nth p (hp w') u | None => u end)
     | Finished _ => HDone u end)) /\
  some_cmd C truth M St f w = Some (Some (w', match e with Failed => HErr | Stopped _ _ => HDone true | Finished _ => HDone false end)) /\
  find_index_cmd C truth M St f w = Some (Some (w', match e with Failed => HErr | Stopped i _ => HDone (Z.of_nat i) | Finished _ => HDone (-1)%Z end)).
Proof.
  intros G HT. destruct (walk_find M truth f HT (S M) 0 None w G ltac:(lia)) as (w' & e & W). exists w', e. split; [exact W|].
  destruct (walk_find_loop truth M false f 0 None w w' e HT W G (S M) ltac:(lia) ltac:(lia) false eq_refl) as (j & X).
  unfold find_cmd, some_cmd, find_index_cmd. rewrite X. pose proof (walk_good M truth f 0 None w w' e HT W G) as G'.
  assert (FL : forall c, e = Finished (Some c) -> truth c = false).
  { clear X. assert (Q : forall i last w w' e, walk truth f i last w w' e -> (forall c, last = Some c -> truth c = false) -> forall c, e = Finished (Some c) -> truth c = false).
    { clear. intros i last w w' e W. induction W as [i last w HL|i last w w' e HL E W IH|i last w p w' HL E F|i last w p w' c HL E F SC|i last w p w1 c w' e HL E F SC W IH]; intros HX d Hd; try discriminate.
      - injection Hd as ->. now apply HX.
      - now apply (IH HX).
      - apply IH; auto. intros c0 Hc0. injection Hc0 as <-. exact SC. }
    apply (Q _ _ _ _ _ W). discriminate. }
  destruct e as [|i c|[c|]]; cbn [conv option_map fst snd]; auto.
  - destruct (walk_stop_block M truth f 0 None w w' i c HT W G) as [B T]. rewrite T. cbn [fst snd].
    rewrite (read_elem M) by auto. unfold rd. destruct (elem_at w' i); auto.
  - rewrite (FL c eq_refl). auto.
Qed.
Theorem every_any_function (f : callback) w : good M w -> tame M f -> exists w' e, walk (fun c => negb (truth c)) f 0 None w w' e /\
  every_cmd C truth M St f w = Some (Some (w', match e with
     | Failed => HErr
     | Stopped _ _ => HDone false
     | Finished (Some _) => HDone true
     | Finished None => HDone false end)).
Proof.
  intros G HT. destruct (walk_find M (fun c => negb (truth c)) f HT (S M) 0 None w G ltac:(lia)) as (w' & e & W). exists w', e. split; [exact W|].
  destruct (walk_find_loop truth M true f 0 None w w' e HT W G (S M) ltac:(lia) ltac:(lia) false eq_refl) as (j & X).
  unfold every_cmd. rewrite X.
  assert (FL : forall c, e = Finished (Some c) -> truth c = true).
  { clear X. assert (Q : forall i last w w' e, walk (fun c => negb (truth c)) f i last w w' e -> (forall c, last = Some c -> truth c = true) -> forall c, e = Finished (Some c) -> truth c = true).
    { clear. intros i last w w' e W. induction W as [i last w HL|i last w w' e HL E W IH|i last w p w' HL E F|i last w p w' c HL E F SC|i last w p w1 c w' e HL E F SC W IH]; intros HX d Hd; try discriminate.
      - injection Hd as ->. now apply HX.
      - now apply (IH HX).
      - apply IH; auto. intros c0 Hc0. injection Hc0 as <-. now apply negb_false_iff. }
    apply (Q _ _ _ _ _ W). discriminate. }
  destruct e as [|i c|[c|]]; cbn [conv option_map fst snd]; auto.
  - destruct (walk_stop_block M _ f 0 None w w' i c HT W G) as [B T]. apply negb_true_iff in T. now rewrite T.
  - now rewrite (FL c eq_refl).
Qed.
(** There is only one such walk. *)
Theorem walk_unique stop (f : callback) i last w w1 e1 w2 e2 : walk stop f i last w w1 e1 -> walk stop f i last w w2 e2 -> w1 = w2 /\ e1 = e2.
Proof.
  intros W. revert w2 e2. induction W as [i last w HL|i last w w' e HL E W IH|i last w p w' HL E F|i last w p w' c HL E F SC|i last w p wn c w' e HL E F SC W IH];
    intros w2 e2 W2; inversion W2; subst; try lia; try congruence; auto.
  - split; congruence.
  - split; congruence.
  - apply IH. replace wn with w1 by congruence. replace c with c0 by congruence. assumption.
Qed.
End P.

(** A function that leaves the array alone and notes what it is called with: every element once, in order, with its
    position. *)
Definition noting {C} (u : C) : callback C (list (nat * C)) := fun w p i => (mkW (st w ++ [(i, nth p (hp w) u)]) (hp w) (ar w), Some u).
Theorem foreach_every_element_once {C} (u : C) M h a es log : rep a es -> owned h es -> length (sl a) <= M ->
  foreach_cmd C u M _ (noting u) (mkW log h a) = Some (Some (mkW (log ++ present (view u h es)) h a, HDone u)).
Proof.
  intros R O L. set (w0 := mkW log h a).
  assert (G : forall l : list (nat * C), good M (mkW l h a)) by (intros l; split; [exists es; auto|exact L]).
  assert (HT : tame M (noting u)) by (intros w p i Gw; cbn; repeat split; auto; apply Gw).
  destruct R as (k & HS & HC).
  assert (EL : forall (l : list (nat * C)) i, elem_at (mkW l h a) i = match nth_error es i with Some (Some p) => Some p | _ => None end).
  { intros l i. unfold elem_at, elems. cbn [ar]. rewrite HS, HC, firstn_app, firstn_all, Nat.sub_diag, firstn_O, app_nil_r. reflexivity. }
  assert (X : forall n i l last, i + n = length es -> exists last', walk (fun _ => false) (noting u) i last (mkW l h a)
      (mkW (l ++ pres C i (view u h (skipn i es))) h a) (Finished last') /\ (last = None \/ last = Some u -> last' = None \/ last' = Some u)).
  { induction n as [|n IH]; intros i l last Hi.
    - rewrite skipn_all2 by lia. cbn. rewrite app_nil_r. exists last. split; [constructor; unfold len; cbn [ar]; lia|auto].
    - assert (SK : exists e, skipn i es = e :: skipn (S i) es /\ nth_error es i = Some e).
      { assert (Hl : i < length es) by lia. clear - Hl. revert i Hl. induction es as [|x es IH]; intros [|i] Hl; cbn in *; try lia; [eauto|]. apply IH. lia. }
      destruct SK as (e & SK & NE). rewrite SK. destruct e as [p|].
      + cbn [view map option_map]. rewrite pres_some. destruct (IH (S i) (l ++ [(i, nth p h u)]) (Some u) ltac:(lia)) as (last' & W & HL).
        exists last'. split; [|auto]. replace (l ++ (i, nth p h u) :: pres C (S i) (map (option_map (fun p => nth p h u)) (skipn (S i) es)))
          with ((l ++ [(i, nth p h u)]) ++ pres C (S i) (view u h (skipn (S i) es))) by (rewrite <- app_assoc; reflexivity).
        eapply walk_next; [unfold len; cbn [ar]; lia|rewrite EL, NE; reflexivity|reflexivity|reflexivity|exact W].
      + cbn [view map option_map]. rewrite pres_none. destruct (IH (S i) l last ltac:(lia)) as (last' & W & HL). exists last'. split; [|auto].
        apply walk_skip; [unfold len; cbn [ar]; lia|rewrite EL, NE; reflexivity|exact W]. }
  destruct (X (length es) 0 log None eq_refl) as (last' & W & HL). cbn [skipn] in W. rewrite <- pres_0 in W.
  destruct (foreach_any_function u M (noting u) w0 (G log) HT) as (w' & e & W' & E). rewrite E.
  destruct (walk_unique _ _ _ _ _ _ _ _ _ W' W) as [-> ->]. do 2 f_equal. destruct HL as [->| ->]; auto.
Qed.

(** Departures.  Elements appended during forEach are visited as well (ECMAScript fixes the length at the start): *)
Notation wZ := (world Z nat).
Definition grow : callback Z nat := script_fun 1000 0%Z (fun n v i => (S n, None, if n <? 3 then [KPush Z [v]] else [], Some v)).
Definition one5 : wZ := mkW 0 [5%Z] (mkA [Some 0] 1).
Theorem foreach_growing_refuted : exists w', foreach_cmd Z 0%Z 1000 nat grow one5 = Some (Some (w', HDone 5%Z)) /\ st w' = 4 /\
  snd (spec_map grow one5) = HDone [Some 5%Z] /\ st (fst (spec_map grow one5)) = 1.
Proof. eexists. split; [vm_compute; reflexivity|]. vm_compute. auto. Qed.
(* the value of forEach is that of the last call instead of undefined: see foreach_any_function; here 5 *)
(** The parameter of the function is the element itself: assigning it changes the array. *)
Definition zero_param : callback Z nat := script_fun 1000 0%Z (fun n v i => (n, Some 0%Z, [], Some 1%Z)).
Theorem parameter_assignment_refuted : exists w', foreach_cmd Z 9%Z 1000 nat zero_param one5 = Some (Some (w', HDone 1%Z)) /\
  elems (ar w') = [Some 0] /\ hp w' = [0%Z].
Proof. eexists. split; [vm_compute; reflexivity|]. auto. Qed.
(** If the function removes the element, filter puts what the function returned into the result, and find finds undefined. *)
Definition remover : callback Z nat := script_fun 1000 0%Z (fun n v i => (n, None, [KPop Z], Some 1%Z)).
Theorem filter_removed_refuted : exists w' q, HofModel.filter_cmd Z (fun z => negb (z =? 0)%Z) 1000 nat remover one5 = Some (w', HDone [Some q]) /\
  nth q (hp w') 0%Z = 1%Z.
Proof. eexists _, _. split; vm_compute; reflexivity. Qed.
Theorem find_removed_refuted : exists w', find_cmd Z 9%Z (fun z => negb (z =? 0)%Z) 1000 nat remover one5 = Some (Some (w', HDone 9%Z)).
Proof. eexists. vm_compute. reflexivity. Qed.
(** every says no for an array without elements *)
Theorem every_none_refuted {C St} (u : C) truth M (f : callback C St) s h : 
  every_cmd C truth M St f (mkW s h empty) = Some (Some (mkW s h empty, HDone false)).
Proof. reflexivity. Qed.

(** Concrete cases that meet the hypotheses *)
Example one5_good : good 1000 one5.
Proof. split; [|cbn; lia]. exists [Some 0]. split; [exists 0; auto|]. split; [repeat constructor; auto|repeat constructor]. Qed.
Example grow_tame : tame 1000 grow.
Proof. apply script_functions_tame. Qed.
Example remover_tame : tame 1000 remover.
Proof. apply script_functions_tame. Qed.
(* map over 1, 2, 3 with a function that pops the last element in the first call: positions 0 and 1 only *)
Definition pop_first : callback Z nat := script_fun 1000 0%Z (fun n v i => (S n, None, if n =? 0 then [KPop Z] else [], Some (v * 10)%Z)).
Example map_popping : HofModel.map_cmd Z 1000 nat pop_first (mkW 0 [1; 2; 3]%Z (mkA [Some 0; Some 1; Some 2] 3))
  = Some (mkW 2 [1; 2; 3]%Z (mkA [Some 0; Some 1; None] 2), HDone [Some 10%Z; Some 20%Z; None]).
Proof. vm_compute. reflexivity. Qed.
