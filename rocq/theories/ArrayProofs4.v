(** Array readers and sort. *)
From Coq Require Import ZArith List Bool Lia Permutation.
From Verif Require Import Bits ArrayModel ArraySpec ArrayProofs ArrayProofs2 ArrayProofs3.
Import ListNotations.
Local Open Scope nat_scope.

Section Q.
Variable C : Type.
Variable u : C.
Variable M : nat.
Implicit Types h : list C.
Notation below h es := (Forall (fun p => p < length h) (ptrs es)).

Lemma below_cons : forall h e es, below h (e :: es) -> below h es.
Proof. intros h e es H. change (e :: es) with ([e] ++ es) in H. rewrite ptrs_app, Forall_app in H. apply H. Qed.

(** ** copying *)
Lemma dup_into_ok : forall vs h a b x y, below h vs ->
  exists new vs', dup_into C u h (a ++ repeat None (length vs) ++ b) (length a) (x ++ vs ++ y) (length x) (length vs) = Some (h ++ new, a ++ vs' ++ b) /\
    length vs' = length vs /\ view u (h ++ new) vs' = view u h vs /\ ptrs vs' = seq (length h) (length new).
Proof.
  induction vs as [|v vs IH]; intros h a b x y F.
  - exists [], []. cbn. rewrite app_nil_r. auto.
  - cbn [length repeat dup_into app]. rewrite get_mid. pose proof (below_cons _ _ _ F) as F'.
    replace (S (length x)) with (length (x ++ [v])) by (rewrite app_length; cbn; lia).
    replace (x ++ v :: vs ++ y) with ((x ++ [v]) ++ vs ++ y) by (rewrite <- app_assoc; auto).
    destruct v as [p|].
    + cbn [dup]. rewrite put_mid.
      replace (S (length a)) with (length (a ++ [Some (length h)])) by (rewrite app_length; cbn; lia).
      replace (a ++ Some (length h) :: repeat None (length vs) ++ b) with ((a ++ [Some (length h)]) ++ repeat None (length vs) ++ b) by (rewrite <- app_assoc; auto).
      destruct (IH (h ++ [rd C u h p]) (a ++ [Some (length h)]) b (x ++ [Some p]) y (Forall_grow C h [rd C u h p] _ F')) as (new & vs' & E & L & V & P).
      rewrite E. exists (rd C u h p :: new), (Some (length h) :: vs'). rewrite <- !app_assoc in *. cbn [app] in *.
      split; auto. split; [cbn; lia|]. split.
      * cbn [view map option_map]. f_equal; [f_equal; rewrite app_nth2, Nat.sub_diag by lia; reflexivity|].
        fold (view u (h ++ rd C u h p :: new) vs'). rewrite V. apply view_grow; auto.
      * cbn [ptrs flat_map app length seq]. f_equal. fold (ptrs vs'). rewrite P, app_length, Nat.add_1_r. reflexivity.
    + replace (S (length a)) with (length (a ++ [@None nat])) by (rewrite app_length; cbn; lia).
      replace (a ++ None :: repeat None (length vs) ++ b) with ((a ++ [None]) ++ repeat None (length vs) ++ b) by (rewrite <- app_assoc; auto).
      destruct (IH h (a ++ [None]) b (x ++ [None]) y F') as (new & vs' & E & L & V & P).
      rewrite E. exists new, (None :: vs'). rewrite <- !app_assoc in *. cbn [app] in *. split; auto. split; [cbn; lia|].
      split; [cbn [view map option_map]; f_equal; exact V|auto].
Qed.
Lemma owned_fresh : forall h (new : list C) vs, ptrs vs = seq (length h) (length new) -> owned (h ++ new) vs.
Proof.
  intros h new vs P. split; rewrite P; [apply seq_NoDup|]. apply Forall_forall. intros p Hp. apply in_seq in Hp. rewrite app_length. lia.
Qed.

(** the outcome of an operation that makes a new array with contents [vw]: an error, or all cells new *)
Definition makes h (vw : list (option C)) (r : option (res C (list C * arr))) : Prop :=
  (exists b, r = Some (Failed b h)) \/
  exists new b bs, r = Some (Done (h ++ new, b)) /\ rep b bs /\ owned (h ++ new) bs /\ view u (h ++ new) bs = vw /\
    Forall (fun p => length h <= p) (ptrs bs).

Lemma fresh_ge : forall h (new : list C) vs, ptrs vs = seq (length h) (length new) -> Forall (fun p => length h <= p) (ptrs vs).
Proof. intros h new vs ->. apply Forall_forall. intros p Hp. apply in_seq in Hp. lia. Qed.

Lemma between_parts : forall (A : Type) (a b c : list A), between (Z.of_nat (length a)) (Z.of_nat (length a) + Z.of_nat (length b) - 1) (a ++ b ++ c) = b.
Proof.
  intros. unfold between. replace (Z.to_nat _) with (length b) by lia. rewrite Nat2Z.id.
  rewrite skipn_app, skipn_all, Nat.sub_diag. cbn [app skipn]. rewrite firstn_app, firstn_all, Nat.sub_diag, firstn_O, app_nil_r. auto.
Qed.

Lemma makes_empty : forall h, makes h [] (Some (Done (h, empty))).
Proof. intros. right. exists [], empty, []. rewrite app_nil_r. repeat split; auto; try constructor. exists 0. auto. Qed.

Lemma slice_ok : forall h a es s e, rep a es -> owned h es ->
  makes h (spec_slice (view u h es) s e) (slice C u M h a s e) /\
  (length es + 16 <= M -> exists h' b, slice C u M h a s e = Some (Done (h', b))).
Proof.
  intros h a es s e (k & HS & HC) (O1 & O2). unfold slice, spec_slice. rewrite HC, view_len.
  assert (Triv : makes h [] (Some (Done (h, empty))) /\ (length es + 16 <= M -> exists h' b, Some (Done (h, empty)) = Some (@Done C _ (h', b)))).
  { split; [apply makes_empty|eauto]. }
  rewrite range_start_spec by lia.
  destruct (start_pos (Z.of_nat (length es)) s) as [s'|] eqn:ES; [|exact Triv].
  apply start_pos_range in ES.
  destruct (Nat.eqb_spec (length es) 0) as [E0|E0].
  { assert (X : view u h es = []) by (apply length_zero_iff_nil; rewrite view_len; auto).
    destruct (end_pos (Z.of_nat (length es)) e) as [e'|]; [|exact Triv]. rewrite X. unfold between. rewrite skipn_nil, firstn_nil. exact Triv. }
  rewrite range_end_spec by lia. destruct (end_pos (Z.of_nat (length es)) e) as [e'|] eqn:EE; [|exact Triv].
  apply end_pos_range in EE; [|lia].
  destruct (Z.leb_spec (e' - s' + 1) 0) as [H1|H1]; cbn [orb].
  { unfold between. replace (Z.to_nat (e' - s' + 1)) with 0 by lia. exact Triv. }
  destruct (Z.leb_spec (Z.of_nat (length es)) s') as [H2|H2].
  { unfold between. rewrite skipn_all2 by (rewrite view_len; lia). rewrite firstn_nil. exact Triv. }
  set (i := Z.to_nat s'). set (m := Z.to_nat (e' - s' + 1)).
  destruct (split_at _ es i ltac:(lia)) as (A & B & E1 & LA).
  assert (LB : length es = length A + length B) by (rewrite E1, app_length; auto).
  destruct (split_at _ B m ltac:(lia)) as (D & T & E2 & LD).
  assert (BT : between s' e' (view u h es) = view u h D).
  { rewrite E1, E2, !view_app. rewrite <- (between_parts _ (view u h A) (view u h D) (view u h T)) at 2. rewrite !view_len. f_equal; lia. }
  rewrite BT.
  assert (FD : below h D). { rewrite E1, E2, !ptrs_app, !Forall_app in O2. apply O2. }
  assert (OK : forall b, sizer M empty m = Some b ->
    makes h (view u h D) (match dup_into C u h (sl b) 0 (sl a) i m with
       | Some (h0, l) => match set_length (mkA l (cnt b)) m with Some b0 => Some (Done (h0, b0)) | None => None end | None => None end) /\
    exists h' b', (match dup_into C u h (sl b) 0 (sl a) i m with
       | Some (h0, l) => match set_length (mkA l (cnt b)) m with Some b0 => Some (Done (h0, b0)) | None => None end | None => None end) = Some (@Done C _ (h', b'))).
  { intros b Eb. destruct (rep_sizer M empty [] m rep_empty) as [E|(b' & kb & E & BS & BC & BL)]; [congruence|].
    rewrite E in Eb. injection Eb as ->. cbn [app length Nat.add] in *. rewrite BS, HS, E1, E2.
    replace kb with (m + (kb - m)) by lia. rewrite repeat_app.
    rewrite <- !app_assoc.
    destruct (dup_into_ok D h [] (repeat None (kb - m)) A (T ++ repeat None k) FD) as (new & vs' & ED & L & V & P).
    cbn [app length] in ED. rewrite LA, LD in ED. rewrite ED. unfold set_length. cbn [sl].
    match goal with |- context [?a <=? ?b] => destruct (Nat.leb_spec a b) as [HL|HL]; [|rewrite app_length in HL; lia] end.
    split; [|eauto]. right. exists new, (mkA (vs' ++ repeat None (kb - m)) m), vs'.
    split; auto. split; [exists (kb - m); cbn; split; auto; lia|]. split; [apply owned_fresh; auto|]. split; auto. eapply fresh_ge; eauto. }
  split.
  - destruct (sizer M empty m) as [b|]; [apply OK; auto|]. left. eauto.
  - intros L. destruct (rep_sizer_ok M empty [] m rep_empty ltac:(lia)) as (b & ? & E & _). rewrite E in *. apply OK; auto.
Qed.

(** ** concat *)
Definition carg_ok h (c : carg) (vw : list (option C)) : Prop :=
  match c with
  | CVal p => p < length h /\ vw = [Some (nth p h u)]
  | CArr x => exists xs, rep x xs /\ below h xs /\ vw = view u h xs
  end.
Lemma carg_grow : forall h new c vw, carg_ok h c vw -> carg_ok (h ++ new) c vw.
Proof.
  intros h new [p|x] vw; cbn [carg_ok].
  - intros (L & ->). split; [rewrite app_length; lia|]. rewrite app_nth1; auto.
  - intros (xs & R & F & ->). exists xs. split; auto. split; [apply Forall_grow; auto|]. rewrite view_grow; auto.
Qed.
Lemma carg_grow_all : forall h new cs vws, Forall2 (carg_ok h) cs vws -> Forall2 (carg_ok (h ++ new)) cs vws.
Proof. intros h new cs vws H. induction H; constructor; auto. apply carg_grow; auto. Qed.

Lemma seq_app' : forall s n m, seq s n ++ seq (s + n) m = seq s (n + m).
Proof. intros. symmetry. apply seq_app. Qed.

Lemma concat_loop_ok : forall args vws h0 new b bs k, Forall2 (carg_ok (h0 ++ new)) args vws ->
  sl b = bs ++ repeat None k -> ptrs bs = seq (length h0) (length new) ->
  (exists b' new', concat_loop C u M (h0 ++ new) b (length bs) (length bs) args = Some (Failed b' (h0 ++ new'))) \/
  exists new' b' bs' k', concat_loop C u M (h0 ++ new) b (length bs) (length bs) args = Some (Done (h0 ++ new', b', length bs')) /\
    sl b' = bs' ++ repeat None k' /\ ptrs bs' = seq (length h0) (length new') /\
    view u (h0 ++ new') bs' = view u (h0 ++ new) bs ++ List.concat vws.
Proof.
  induction args as [|c args IH]; intros vws h0 new b bs k F S P; inversion F as [|? vw ? vws' Hc Hr]; subst; cbn [concat_loop].
  - right. exists new, b, bs, k. cbn [List.concat]. rewrite app_nil_r. auto.
  - destruct c as [p|x].
    + destruct (sizer_any M b (length bs + 1)) as [E|(k1 & E & L)]; rewrite E; [left; eauto|]. cbn [dup sl].
      rewrite S in *. rewrite app_length, repeat_length in L. rewrite <- app_assoc, <- repeat_app.
      destruct (k + k1) as [|kk] eqn:EK; [lia|]. cbn [repeat]. rewrite put_mid. cbn [cnt].
      replace (length bs + 1) with (length (bs ++ [Some (length (h0 ++ new))])) by (rewrite app_length; cbn; lia).
      rewrite <- app_assoc. destruct Hc as (Lp & Ev).
      assert (P2 : ptrs (bs ++ [Some (length (h0 ++ new))]) = seq (length h0) (length (new ++ [rd C u (h0 ++ new) p]))).
      { rewrite ptrs_app, P. cbn [ptrs flat_map app]. rewrite !app_length. cbn [length]. rewrite <- seq_app'. reflexivity. }
      destruct (IH vws' h0 (new ++ [rd C u (h0 ++ new) p]) (mkA (bs ++ Some (length (h0 ++ new)) :: repeat None kk) (cnt (mkA (bs ++ repeat None (k+k1)) (Nat.max (cnt b) (length bs + 1)))))
         (bs ++ [Some (length (h0 ++ new))]) kk) as [(b' & new' & EE)|(new' & b' & bs' & k' & EE & S' & P' & V')]; auto.
      { rewrite app_assoc. apply carg_grow_all; auto. }
      { cbn [sl]. rewrite <- app_assoc. reflexivity. }
      * left. cbn [cnt] in EE. replace (length bs + 1) with (length (bs ++ [Some (length (h0 ++ new))])) in EE by (rewrite app_length; cbn; lia). rewrite EE. eauto.
      * right. cbn [cnt] in EE. replace (length bs + 1) with (length (bs ++ [Some (length (h0 ++ new))])) in EE by (rewrite app_length; cbn; lia). rewrite EE.
        exists new', b', bs', k'. split; auto. split; auto. split; auto. rewrite V'. rewrite view_app, Ev. cbn [List.concat]. rewrite <- app_assoc.
        rewrite app_assoc with (l := h0). rewrite view_grow.
        2:{ rewrite P. apply Forall_forall. intros q Hq. apply in_seq in Hq. rewrite app_length. lia. }
        f_equal. cbn [view map option_map app]. do 2 f_equal. rewrite app_nth2, Nat.sub_diag by lia. reflexivity.
    + destruct Hc as (xs & (kx & XS & XC) & Fx & Ev). rewrite XC.
      destruct (sizer_any M b (length bs + length xs)) as [E|(k1 & E & L)]; rewrite E; [left; eauto|]. cbn [sl].
      rewrite S in *. rewrite app_length, repeat_length in L. rewrite <- app_assoc, <- repeat_app.
      replace (k + k1) with (length xs + (k + k1 - length xs)) by lia. rewrite repeat_app.
      destruct (dup_into_ok xs (h0 ++ new) bs (repeat None (k + k1 - length xs)) [] (repeat None kx) Fx) as (n2 & vs' & ED & L' & V & Pv).
      cbn [app length] in ED. rewrite XS, ED. rewrite <- app_assoc.
      assert (P2 : ptrs (bs ++ vs') = seq (length h0) (length (new ++ n2))).
      { rewrite ptrs_app, P, Pv, !app_length, seq_app'. reflexivity. }
      replace (length bs + length xs) with (length (bs ++ vs')) by (rewrite app_length; lia). cbn [cnt].
      destruct (IH vws' h0 (new ++ n2) (mkA (bs ++ vs' ++ repeat None (k + k1 - length xs)) (Nat.max (cnt b) (length (bs ++ vs')))) (bs ++ vs') (k + k1 - length xs)) as [(b' & new' & EE)|(new' & b' & bs' & k' & EE & S' & P' & V')]; auto.
      { rewrite app_assoc. apply carg_grow_all; auto. }
      { cbn [sl]. rewrite <- app_assoc. reflexivity. }
      * left. rewrite EE. eauto.
      * right. rewrite EE. exists new', b', bs', k'. split; auto. split; auto. split; auto. rewrite V'. rewrite view_app, Ev. cbn [List.concat].
        rewrite app_assoc with (l := h0). rewrite V. rewrite view_grow; [rewrite <- app_assoc; auto|].
        rewrite P. apply Forall_forall. intros q Hq. apply in_seq in Hq. rewrite app_length. lia.
Qed.
Definition cmakes h (vw : list (option C)) (r : option (res C (list C * arr))) : Prop :=
  (exists b new, r = Some (Failed b (h ++ new))) \/
  exists new b bs, r = Some (Done (h ++ new, b)) /\ rep b bs /\ owned (h ++ new) bs /\ view u (h ++ new) bs = vw /\
    Forall (fun p => length h <= p) (ptrs bs).
Lemma concat_ok : forall h a es args vws, rep a es -> owned h es -> Forall2 (carg_ok h) args vws ->
  cmakes h (view u h es ++ List.concat vws) (concat C u M h a args).
Proof.
  intros h a es args vws (k & HS & HC) (O1 & O2) F. unfold concat.
  set (nsiz := if length (sl a) =? 0 then 100 else length (sl a)).
  assert (LN : length es <= nsiz). { subst nsiz. rewrite HS, app_length. destruct (Nat.eqb_spec (length es + length (repeat (@None nat) k)) 0); lia. }
  destruct (rep_sizer M empty [] (nsiz + 1) rep_empty) as [E|(b & kb & E & BS & BC & BL)]; rewrite E.
  { left. exists empty, []. rewrite app_nil_r. auto. }
  cbn [app length Nat.add] in *. rewrite BS, HS, HC. replace kb with (length es + (kb - length es)) by lia. rewrite repeat_app.
  destruct (dup_into_ok es h [] (repeat None (kb - length es)) [] (repeat None k) O2) as (new & vs' & ED & L & V & P).
  cbn [app length] in ED. rewrite ED.
  destruct (concat_loop_ok args vws h new (mkA (vs' ++ repeat None (kb - length es)) (cnt b)) vs' (kb - length es)) as [(b' & new' & EE)|(new' & b' & bs' & k' & EE & S' & P' & V')]; auto.
  { apply carg_grow_all; auto. }
  - rewrite L in EE. rewrite EE. left. eauto.
  - rewrite L in EE. rewrite EE. unfold set_length. rewrite S'.
    match goal with |- context [?a <=? ?b] => destruct (Nat.leb_spec a b) as [HL|HL]; [|rewrite app_length in HL; lia] end.
    right. exists new', (mkA (bs' ++ repeat None k') (length bs')), bs'. split; auto. split; [exists k'; auto|]. split; [apply owned_fresh; auto|].
    split; [rewrite V', V; auto|]. eapply fresh_ge; eauto.
Qed.
End Q.
