(** Proofs about the array methods that call a function. *)
From Coq Require Import ZArith List Bool Lia.
Import ListNotations.
Require Import Verif.Bits Verif.ArrayModel Verif.ArraySpec Verif.ArrayProofs Verif.ArrayProofs2 Verif.ArrayProofs3 Verif.HofModel Verif.HofSpec.
Local Open Scope nat_scope.

Section P.
Context {C St : Type}.
Variable u : C.
Variable truth : C -> bool.
Variable M : nat.
Notation world := (world C St).
Notation callback := (callback C St).

(** a slot read by the code is an element the script sees *)
Lemma read_elem (w : world) i : good M w -> i < length (sl (ar w)) -> get (sl (ar w)) i = Some (elem_at w i).
Proof.
  intros [(es & (k & HS & HC) & _) _] Hi. unfold get, elem_at, elems. rewrite HS, HC in *.
  rewrite app_length, repeat_length in Hi. rewrite firstn_app, firstn_all, Nat.sub_diag, firstn_O, app_nil_r.
  destruct (Nat.lt_ge_cases i (length es)) as [L|L].
  - rewrite nth_error_app1 by lia. destruct (nth_error es i) as [[p|]|] eqn:E; auto. apply nth_error_None in E. lia.
  - rewrite nth_error_app2 by lia. replace (nth_error es i) with (@None slot) by (symmetry; apply nth_error_None; lia).
    destruct (nth_error (repeat None k) (i - length es)) as [x|] eqn:E.
    + apply nth_error_In, repeat_spec in E. now subst.
    + apply nth_error_None in E. rewrite repeat_length in E. lia.
Qed.
Lemma elem_beyond (w : world) i : len w <= i -> elem_at w i = None.
Proof.
  intros H. unfold elem_at, elems, len in *. replace (nth_error _ i) with (@None slot); auto. symmetry. apply nth_error_None.
  rewrite firstn_length. lia.
Qed.
Lemma elem_lt (w : world) i p : elem_at w i = Some p -> i < len w.
Proof. intros H. destruct (Nat.lt_ge_cases i (len w)); auto. rewrite elem_beyond in H by lia. discriminate. Qed.
Lemma elem_alloc (w : world) i p : good M w -> elem_at w i = Some p -> p < length (hp w).
Proof.
  intros [(es & (k & HS & HC) & _ & O) _] H. unfold elem_at, elems in H. rewrite HS, HC in H.
  rewrite firstn_app, firstn_all, Nat.sub_diag, firstn_O, app_nil_r in H.
  destruct (nth_error es i) as [[q|]|] eqn:E; try discriminate. injection H as ->.
  rewrite Forall_forall in O. apply O. unfold ptrs. apply in_flat_map. exists (Some p). split; [eapply nth_error_In; eauto|cbn; auto].
Qed.
Lemma len_block (w : world) : good M w -> len w <= length (sl (ar w)).
Proof. intros [(es & (k & HS & HC) & _) _]. unfold len. rewrite HS, HC, app_length. lia. Qed.

Lemma sizer_new n : n + 16 <= M -> exists k, sizer M empty n = Some (mkA (repeat None k) n) /\ n < k.
Proof.
  intros H. destruct (sizer_spec M empty n H) as (k & E & L). cbn [sl cnt empty app length] in *. exists k. rewrite E.
  replace (Nat.max 0 n) with n by lia. auto.
Qed.

(** ** map *)
Lemma vput_ok (l : list (option C)) i v : i < length l -> exists l', vput C l i v = Some l' /\ length l' = length l /\
  (forall j, nth_error l' j = if j =? i then Some v else nth_error l j).
Proof.
  intros H. unfold vput. destruct (Nat.ltb_spec i (length l)); [|lia]. eexists. split; [reflexivity|]. split.
  - rewrite app_length, firstn_length. cbn [length]. rewrite skipn_length. lia.
  - intros j. destruct (Nat.eqb_spec j i) as [->|N].
    + rewrite nth_error_app2 by (rewrite firstn_length; lia). rewrite firstn_length, Nat.min_l, Nat.sub_diag by lia. reflexivity.
    + destruct (Nat.lt_ge_cases j i).
      * rewrite nth_error_app1 by (rewrite firstn_length; lia). rewrite <- (firstn_skipn i l) at 2. rewrite nth_error_app1 by (rewrite firstn_length; lia). reflexivity.
      * rewrite nth_error_app2 by (rewrite firstn_length; lia). rewrite firstn_length, Nat.min_l by lia.
        replace (j - i) with (S (j - S i)) by lia. cbn [nth_error].
        rewrite <- (firstn_skipn (S i) l) at 2. rewrite nth_error_app2 by (rewrite firstn_length; lia).
        rewrite firstn_length, Nat.min_l by lia. reflexivity.
Qed.
Definition map_body (f : callback) (acc : list (nat * C)) (w : world) (p i : nat) : world * option (list (nat * C)) :=
  let '(w', r) := f w p i in (w', option_map (fun c => acc ++ [(i, c)]) r).
Definition fits (dst : list (option C)) (l : list (nat * C)) : Prop := forall j, j < length dst -> nth_error dst j = Some (lookup l j).
Lemma lookup_app (l : list (nat * C)) i c j : lookup (l ++ [(i, c)]) j = match lookup l j with Some x => Some x | None => if i =? j then Some c else None end.
Proof. induction l as [|[a b] l IH]; cbn; [reflexivity|]. destruct (a =? j); auto. Qed.
Lemma map_loop_visit f : tame M f -> forall k i dst acc w, good M w -> i + k <= length (sl (ar w)) -> i + k <= length dst -> fits dst acc ->
  (forall j, i <= j -> lookup acc j = None) ->
  match visit (map_body f) (seq i k) acc w with
  | (w', Some l) => exists dst', HofModel.map_loop C St f k i dst w = Some (w', HDone dst') /\ fits dst' l /\ length dst' = length dst
  | (w', None) => HofModel.map_loop C St f k i dst w = Some (w', HErr)
  end.
Proof.
  intros HT. induction k as [|k IH]; intros i dst acc w G HB HD HF HL; cbn [seq visit HofModel.map_loop]; [eauto|].
  rewrite read_elem by (auto; lia). destruct (elem_at w i) as [p|] eqn:E.
  - destruct (HT w p i G) as (G' & B1 & B2). unfold map_body at 1. destruct (f w p i) as [w1 r]. cbn [fst] in *.
    destruct r as [c|]; cbn [option_map]; [|reflexivity].
    destruct (vput_ok dst i (Some c) ltac:(lia)) as (dst' & -> & L & N).
    specialize (IH (S i) dst' (acc ++ [(i, c)]) w1 G' ltac:(lia) ltac:(lia)).
    assert (F' : fits dst' (acc ++ [(i, c)])).
    { intros j Hj. rewrite N, lookup_app. destruct (Nat.eqb_spec j i) as [->|NE].
      - rewrite HL by lia. now rewrite Nat.eqb_refl.
      - rewrite HF by lia. destruct (Nat.eqb_spec i j); [lia|]. now destruct (lookup acc j). }
    specialize (IH F'). assert (L' : forall j, S i <= j -> lookup (acc ++ [(i, c)]) j = None).
    { intros j Hj. rewrite lookup_app, HL by lia. destruct (Nat.eqb_spec i j); [lia|reflexivity]. }
    specialize (IH L'). destruct (visit (map_body f) (seq (S i) k) (acc ++ [(i, c)]) w1) as [w2 [l|]]; auto.
    destruct IH as (d & X & Y & Z). exists d. split; auto. split; auto. lia.
  - apply IH; auto; try lia. intros j Hj. apply HL. lia.
Qed.
Lemma fits_map dst l n : fits dst l -> n <= length dst -> firstn n dst = map (lookup l) (seq 0 n).
Proof.
  intros F Hn. apply (nth_ext _ _ None None).
  - rewrite firstn_length, map_length, seq_length. lia.
  - intros j Hj. rewrite firstn_length in Hj. assert (j < n) by lia.
    assert (X : nth_error (firstn n dst) j = nth_error dst j).
    { rewrite <- (firstn_skipn n dst) at 2. rewrite nth_error_app1; auto. rewrite firstn_length. lia. }
    assert (Y : nth_error (map (lookup l) (seq 0 n)) j = Some (lookup l j)).
    { erewrite map_nth_error; [reflexivity|]. rewrite (nth_error_nth' _ 0) by (rewrite seq_length; lia). now rewrite seq_nth by lia. }
    rewrite F in X by lia. erewrite nth_error_nth by exact X. erewrite nth_error_nth by exact Y. reflexivity.
Qed.
Lemma map_cmd_visit f w : tame M f -> good M w -> len w + 17 <= M -> HofModel.map_cmd C M St f w = Some (spec_map f w).
Proof.
  intros HT G HM. unfold HofModel.map_cmd.
  assert (HS : (if cnt (ar w) =? 0 then 1 else cnt (ar w)) + 16 <= M) by (unfold len in HM; destruct (cnt (ar w) =? 0); lia).
  destruct (sizer_new _ HS) as (k & E & L). rewrite E. cbn [sl]. rewrite repeat_length.
  assert (LK : len w < k) by (unfold len; destruct (Nat.eqb_spec (cnt (ar w)) 0); lia).
  pose proof (len_block w G) as LB.
  pose proof (map_loop_visit f HT (len w) 0 (repeat None k) [] w G LB ltac:(rewrite repeat_length; lia)) as X.
  assert (F0 : fits (repeat None k) []).
  { intros j Hj. cbn. rewrite repeat_length in Hj. rewrite (nth_error_nth' _ None) by (rewrite repeat_length; lia).
    now rewrite (nth_repeat None k j). }
  specialize (X F0 ltac:(reflexivity)). unfold spec_map, outcome. fold (map_body f). change (cnt (ar w)) with (len w).
  change (fun acc w p i => let '(w', r) := f w p i in (w', option_map (fun c => acc ++ [(i, c)]) r)) with (map_body f).
  destruct (visit (map_body f) (seq 0 (len w)) [] w) as [w' [l|]]; cbn [fst snd].
  - destruct X as (dst' & -> & F & LD). rewrite repeat_length in LD. destruct (Nat.leb_spec (len w) (length dst')); [|lia].
    rewrite (fits_map dst' l (len w)) by (auto; lia). reflexivity.
  - rewrite X. reflexivity.
Qed.

(** ** filter *)
Lemma put_len (l : list slot) n v : n < length l -> exists l', put l n v = Some l' /\ length l' = length l /\ firstn (S n) l' = firstn n l ++ [v].
Proof.
  intros H. unfold put. destruct (Nat.ltb_spec n (length l)); [|lia]. eexists. split; [reflexivity|]. split.
  - rewrite app_length, firstn_length. cbn [length]. rewrite skipn_length. lia.
  - rewrite firstn_app, firstn_firstn, Nat.min_r, firstn_length, Nat.min_l by lia. replace (S n - n) with 1 by lia. reflexivity.
Qed.
Lemma good_grow (w : world) l : good M w -> good M (mkW (st w) (hp w ++ l) (ar w)).
Proof.
  intros [(es & R & O1 & O2) L]. split; [|exact L]. exists es. split; [exact R|]. split; [exact O1|].
  cbn [hp]. eapply Forall_impl; [|exact O2]. cbn. intros p Hp. rewrite app_length. lia.
Qed.
Lemma filter_loop_visit f : tame M f -> forall k i n dst acc w, good M w -> i + k <= length (sl (ar w)) -> n + k <= length dst ->
  length acc = n -> firstn n dst = map Some acc ->
  match visit (keep truth f) (seq i k) acc w with
  | (w', Some l) => exists dst', HofModel.filter_loop C truth St f k i n dst w = Some (w', HDone (dst', length l)) /\
                      firstn (length l) dst' = map Some l /\ length l <= length dst'
  | (w', None) => HofModel.filter_loop C truth St f k i n dst w = Some (w', HErr)
  end.
Proof.
  intros HT. induction k as [|k IH]; intros i n dst acc w G HB HD HN HF; cbn [seq visit HofModel.filter_loop].
  - subst n. exists dst. repeat split; auto. lia.
  - rewrite read_elem by (auto; lia). destruct (elem_at w i) as [p|] eqn:E; [|apply IH; auto; lia].
    destruct (HT w p i G) as (G' & B1 & B2). unfold keep at 1. destruct (f w p i) as [w1 r]. cbn [fst] in *.
    destruct r as [c|]; [|reflexivity]. destruct (truth c); [|apply IH; auto; lia].
    assert (FR : (if i <? cnt (ar w1) then match get (sl (ar w1)) i with None => None | Some (Some q) => Some (w1, Some q)
        | Some None => Some (mkW (st w1) (hp w1 ++ [c]) (ar w1), Some (length (hp w1))) end
      else Some (mkW (st w1) (hp w1 ++ [c]) (ar w1), Some (length (hp w1)))) =
      Some (match elem_at w1 i with Some q => (w1, Some q) | None => (mkW (st w1) (hp w1 ++ [c]) (ar w1), Some (length (hp w1))) end)).
    { destruct (Nat.ltb_spec i (cnt (ar w1))) as [L|L].
      - rewrite read_elem by (auto; lia). now destruct (elem_at w1 i).
      - rewrite elem_beyond by exact L. reflexivity. }
    rewrite FR. clear FR. destruct (elem_at w1 i) as [q|] eqn:E1.
    + destruct (put_len dst n (Some q) ltac:(lia)) as (dst' & -> & L & N).
      apply IH; auto; try lia; [rewrite app_length; cbn; lia|]. rewrite N, HF, map_app. reflexivity.
    + destruct (put_len dst n (Some (length (hp w1))) ltac:(lia)) as (dst' & -> & L & N).
      apply IH; auto; try lia; [now apply good_grow|cbn [ar]; lia|rewrite app_length; cbn; lia|]. rewrite N, HF, map_app. reflexivity.
Qed.
Lemma filter_cmd_visit f w : tame M f -> good M w -> len w + 17 <= M ->
  HofModel.filter_cmd C truth M St f w =
  Some (fst (spec_filter truth f w), match snd (spec_filter truth f w) with HDone l => HDone (map Some l) | HErr => HErr end).
Proof.
  intros HT G HM. unfold HofModel.filter_cmd.
  assert (HS : (if cnt (ar w) =? 0 then 1 else cnt (ar w)) + 16 <= M) by (unfold len in HM; destruct (cnt (ar w) =? 0); lia).
  destruct (sizer_new _ HS) as (k & E & L). rewrite E. cbn [sl].
  assert (LK : len w < k) by (unfold len; destruct (Nat.eqb_spec (cnt (ar w)) 0); lia).
  pose proof (len_block w G) as LB.
  pose proof (filter_loop_visit f HT (len w) 0 0 (repeat None k) [] w G LB ltac:(rewrite repeat_length; lia) eq_refl eq_refl) as X.
  unfold spec_filter, outcome. change (cnt (ar w)) with (len w).
  destruct (visit (keep truth f) (seq 0 (len w)) [] w) as [w' [l|]]; cbn [fst snd].
  - destruct X as (dst' & -> & F & LD). destruct (Nat.leb_spec (length l) (length dst')); [|lia]. now rewrite F.
  - rewrite X. reflexivity.
Qed.

(** ** reduce *)
Lemma reduce_up f : (forall acc, tame M (fun w p i => f w acc p i)) -> forall k i n c w, good M w -> i + k <= length (sl (ar w)) ->
  reduce_loop C u St false f k i n (Some c) w =
  match visit (fun acc w p i => f w acc p i) (seq i k) c w with (w', Some x) => Some (w', HDone (Some x)) | (w', None) => Some (w', HErr) end.
Proof.
  intros HT. induction k as [|k IH]; intros i n c w G HB; cbn [seq visit reduce_loop]; [reflexivity|].
  rewrite read_elem by (auto; lia). destruct (elem_at w i) as [p|] eqn:E; [|apply IH; auto; lia].
  rewrite andb_false_r. destruct (HT c w p i G) as (G' & B1 & B2). destruct (f w c p i) as [w1 r]. cbn [fst] in *.
  destruct r as [x|]; [|reflexivity]. apply IH; auto; lia.
Qed.
Lemma reduce_down f : (forall acc, tame M (fun w p i => f w acc p i)) -> forall k n c w, good M w -> k <= length (sl (ar w)) ->
  reduce_loop C u St true f k (k - 1) n (Some c) w =
  match visit (fun acc w p i => f w acc p i) (rev (seq 0 k)) c w with (w', Some x) => Some (w', HDone (Some x)) | (w', None) => Some (w', HErr) end.
Proof.
  intros HT. induction k as [|k IH]; intros n c w G HB; [reflexivity|].
  rewrite seq_S, rev_app_distr. cbn [rev app plus visit reduce_loop]. replace (S k - 1) with k by lia.
  rewrite read_elem by (auto; lia). destruct (elem_at w k) as [p|] eqn:E; [|apply IH; auto; lia].
  rewrite andb_false_r. destruct (HT c w p k G) as (G' & B1 & B2). destruct (f w c p k) as [w1 r]. cbn [fst] in *.
  destruct r as [x|]; [|reflexivity]. apply IH; auto; lia.
Qed.

(** ** forEach, find *)
Lemma good_len (w : world) : good M w -> len w <= M.
Proof. intros G. pose proof (len_block w G). destruct G. lia. Qed.
Lemma walk_find stop (f : callback) : tame M f -> forall fuel i last w, good M w -> M < fuel + i -> exists w' e, walk stop f i last w w' e.
Proof.
  intros HT. induction fuel as [|fuel IH]; intros i last w G HF.
  - pose proof (good_len w G). exists w, (Finished last). constructor. lia.
  - destruct (Nat.lt_ge_cases i (len w)) as [L|L]; [|exists w, (Finished last); now constructor].
    destruct (elem_at w i) as [p|] eqn:E.
    + destruct (HT w p i G) as (G' & _). destruct (f w p i) as [w1 r] eqn:F. cbn [fst] in G'. destruct r as [c|].
      * destruct (stop c) eqn:SC.
        -- exists w1, (Stopped i c). eapply walk_stop; eauto.
        -- destruct (IH (S i) (Some c) w1 G' ltac:(lia)) as (w' & e & W). exists w', e. eapply walk_next; eauto.
      * exists w1, Failed. eapply walk_fail; eauto.
    + destruct (IH (S i) last w G ltac:(lia)) as (w' & e & W). exists w', e. now apply walk_skip.
Qed.
Lemma walk_foreach (f : callback) i last w w' e : tame M f -> walk (fun _ => false) f i last w w' e -> good M w -> forall fuel, M < fuel + i -> i <= M ->
  forall l, (match last with Some c => l = c | None => l = u end) ->
  foreach_loop C St fuel f i l w = Some (Some (w', match e with Failed => HErr | Stopped _ c => HDone c | Finished (Some c) => HDone c | Finished None => HDone u end)).
Proof.
  intros HT W. induction W as [i last w HL|i last w w' e HL E W IH|i last w p w' HL E F|i last w p w' c HL E F SC|i last w p w1 c w' e HL E F SC W IH];
    intros G fuel HF HI l Hl.
  - destruct fuel as [|fuel]; cbn [foreach_loop].
    + pose proof (good_len w G). unfold len in *. lia.
    + unfold len in HL. destruct (Nat.ltb_spec i (cnt (ar w))); [lia|]. destruct last; subst; reflexivity.
  - pose proof (good_len w G) as GL. pose proof (len_block w G). destruct fuel as [|fuel]; [lia|]. cbn [foreach_loop]. unfold len in *.
    destruct (Nat.ltb_spec i (cnt (ar w))); [|lia]. rewrite read_elem, E by (auto; lia). apply IH; auto; lia.
  - pose proof (good_len w G) as GL. pose proof (len_block w G). destruct fuel as [|fuel]; [lia|]. cbn [foreach_loop]. unfold len in *.
    destruct (Nat.ltb_spec i (cnt (ar w))); [|lia]. rewrite read_elem, E by (auto; lia). now rewrite F.
  - discriminate.
  - pose proof (good_len w G) as GL. pose proof (len_block w G). destruct fuel as [|fuel]; [lia|]. cbn [foreach_loop]. unfold len in *.
    destruct (Nat.ltb_spec i (cnt (ar w))); [|lia]. rewrite read_elem, E by (auto; lia). rewrite F.
    destruct (HT w p i G) as (G' & _). rewrite F in G'. apply IH; auto; lia.
Qed.
Lemma walk_good stop (f : callback) i last w w' e : tame M f -> walk stop f i last w w' e -> good M w -> good M w'.
Proof.
  intros HT W. induction W as [i last w HL|i last w w' e HL E W IH|i last w p w' HL E F|i last w p w' c HL E F SC|i last w p w1 c w' e HL E F SC W IH]; intros G; auto.
  - destruct (HT w p i G) as (G' & _). now rewrite F in G'.
  - destruct (HT w p i G) as (G' & _). now rewrite F in G'.
  - apply IH. destruct (HT w p i G) as (G' & _). now rewrite F in G'.
Qed.
Lemma walk_stop_block stop (f : callback) i last w w' j c : tame M f -> walk stop f i last w w' (Stopped j c) -> good M w -> j < length (sl (ar w')) /\ stop c = true.
Proof.
  intros HT W. remember (Stopped j c) as e eqn:Ee. revert j c Ee.
  induction W as [i last w HL|i last w w' e HL E W IH|i last w p w' HL E F|i last w p w' c HL E F SC|i last w p w1 c w' e HL E F SC W IH]; intros j c' Ee G; try discriminate.
  - now apply IH.
  - injection Ee as <- <-. split; auto. pose proof (len_block w G). destruct (HT w p i G) as (_ & B & _). rewrite F in B. cbn [fst] in B. lia.
  - apply IH; auto. destruct (HT w p i G) as (G' & _). now rewrite F in G'.
Qed.
Lemma walk_find_loop (every : bool) (f : callback) i last w w' e : tame M f -> walk (fun c => if every then negb (truth c) else truth c) f i last w w' e -> good M w -> forall fuel, M < fuel + i -> i <= M ->
  forall fv, (match last with Some c => fv = truth c | None => fv = false end) ->
  exists j, find_loop C truth St fuel every f i fv w = Some (Some (w', match e with Failed => HErr | Stopped k c => HDone (truth c, k) | Finished (Some c) => HDone (truth c, j) | Finished None => HDone (false, j) end)).
Proof.
  intros HT W. induction W as [i last w HL|i last w w' e HL E W IH|i last w p w' HL E F|i last w p w' c HL E F SC|i last w p w1 c w' e HL E F SC W IH];
    intros G fuel HF HI l Hl; pose proof (good_len w G) as GL; pose proof (len_block w G) as LB.
  - destruct fuel as [|fuel]; cbn [find_loop].
    + unfold len in *. lia.
    + unfold len in HL. destruct (Nat.ltb_spec i (cnt (ar w))); [lia|]. exists i. destruct last; subst; reflexivity.
  - destruct fuel as [|fuel]; [lia|]. cbn [find_loop]. unfold len in *.
    destruct (Nat.ltb_spec i (cnt (ar w))); [|lia]. rewrite read_elem, E by (auto; lia). apply IH; auto; lia.
  - destruct fuel as [|fuel]; [lia|]. cbn [find_loop]. unfold len in *.
    destruct (Nat.ltb_spec i (cnt (ar w))); [|lia]. rewrite read_elem, E by (auto; lia). rewrite F. exists 0; reflexivity.
  - destruct fuel as [|fuel]; [lia|]. cbn [find_loop]. unfold len in *.
    destruct (Nat.ltb_spec i (cnt (ar w))); [|lia]. rewrite read_elem, E by (auto; lia). rewrite F. cbv beta in SC. rewrite SC. exists 0; reflexivity.
  - destruct fuel as [|fuel]; [lia|]. cbn [find_loop]. unfold len in *.
    destruct (Nat.ltb_spec i (cnt (ar w))); [|lia]. rewrite read_elem, E by (auto; lia). rewrite F. cbv beta in SC. rewrite SC.
    destruct (HT w p i G) as (G' & _). rewrite F in G'. apply IH; auto; lia.
Qed.
End P.
