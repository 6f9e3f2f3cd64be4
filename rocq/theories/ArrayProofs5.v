(** Array readers with a callback, search, join, and sort. *)
From Coq Require Import ZArith List Bool Lia Permutation.
From Verif Require Import Bits ArrayModel ArraySpec ArrayProofs ArrayProofs2 ArrayProofs3 ArrayProofs4.
Import ListNotations.
Local Open Scope nat_scope.

Section Q.
Variable C : Type.
Variable u : C.
Variable M : nat.
Implicit Types h : list C.
Notation below h es := (Forall (fun p => p < length h) (ptrs es)).

Definition pres (o : nat) (l : list (option C)) : list (nat * C) :=
  flat_map (fun ix => match snd ix with Some x => [(fst ix, x)] | None => [] end) (combine (seq o (length l)) l).
Lemma pres_0 : forall l, present l = pres 0 l.
Proof. reflexivity. Qed.
Lemma pres_some : forall o x l, pres o (Some x :: l) = (o, x) :: pres (S o) l.
Proof. reflexivity. Qed.
Lemma pres_none : forall o l, pres o (None :: l) = pres (S o) l.
Proof. reflexivity. Qed.

Ltac shift_a a v :=
  match goal with |- context [?f (a ++ v :: ?vs ++ ?b)] => idtac end.
Lemma cons_mid : forall (A : Type) (a : list A) v vs, a ++ v :: vs = (a ++ [v]) ++ vs.
Proof. intros. rewrite <- app_assoc. reflexivity. Qed.
Lemma len_mid : forall (A : Type) (a : list A) v, S (length a) = length (a ++ [v]).
Proof. intros. rewrite app_length. cbn. lia. Qed.

(** ** indexOf, includes *)
Lemma find_up_ok : forall eq h vs a b,
  find_up C u eq h (a ++ vs ++ b) (length a) (length vs) =
  Some (match find (fun ix => eq (snd ix)) (pres (length a) (view u h vs)) with Some ix => Z.of_nat (fst ix) | None => (-1)%Z end).
Proof.
  induction vs as [|v vs IH]; intros a b; [reflexivity|]. cbn [length find_up app]. rewrite get_mid.
  rewrite (cons_mid _ a v (vs ++ b)), (len_mid _ a v).
  destruct v as [p|]; cbn [view map option_map]; fold (view u h vs).
  - rewrite pres_some. cbn [find snd fst]. unfold rd. destruct (eq (nth p h u)); [reflexivity|]. rewrite IH. rewrite app_length, Nat.add_1_r. reflexivity.
  - rewrite pres_none. rewrite IH. rewrite app_length, Nat.add_1_r. reflexivity.
Qed.
Lemma pres_app : forall a b o, pres o (a ++ b) = pres o a ++ pres (o + length a) b.
Proof.
  induction a as [|x a IH]; intros b o; cbn [app length]; [rewrite Nat.add_0_r; reflexivity|].
  destruct x as [x|]; rewrite ?pres_some, ?pres_none, IH; cbn [app]; replace (S o + length a) with (o + S (length a)) by lia; reflexivity.
Qed.
Lemma find_down_ok : forall eq h vs b,
  find_down C u eq h (vs ++ b) (length vs) =
  Some (match find (fun ix => eq (snd ix)) (rev (pres 0 (view u h vs))) with Some ix => Z.of_nat (fst ix) | None => (-1)%Z end).
Proof.
  induction vs as [|v vs IH] using rev_ind; intros b; [reflexivity|]. rewrite app_length, Nat.add_1_r. cbn [find_down].
  rewrite <- app_assoc. cbn [app]. rewrite get_mid. rewrite view_app, pres_app, rev_app_distr, view_len. cbn [Nat.add].
  destruct v as [p|]; cbn [view map option_map].
  - rewrite pres_some. cbn [rev pres length seq combine flat_map app find snd fst]. unfold rd. destruct (eq (nth p h u)); [reflexivity|]. apply IH.
  - rewrite pres_none. cbn [pres length seq combine flat_map rev app]. apply IH.
Qed.

(** ** map *)
Definition mapi (o : nat) (f : C -> nat -> C) (l : list (option C)) : list (option C) :=
  map (fun ix => option_map (fun c => f c (fst ix)) (snd ix)) (combine (seq o (length l)) l).
Lemma map_loop_ok : forall f vs h a a' b b', below h vs -> length a = length a' ->
  exists new vs', map_loop C u f h (a ++ vs ++ b) (a' ++ repeat None (length vs) ++ b') (length a) (length vs) = Some (h ++ new, a' ++ vs' ++ b') /\
    length vs' = length vs /\ view u (h ++ new) vs' = mapi (length a) f (view u h vs) /\ ptrs vs' = seq (length h) (length new).
Proof.
  induction vs as [|v vs IH]; intros h a a' b b' F L.
  - exists [], []. cbn. rewrite app_nil_r. auto.
  - cbn [length repeat map_loop app]. rewrite get_mid. pose proof (below_cons C _ _ _ F) as F'.
    rewrite (cons_mid _ a v (vs ++ b)), (len_mid _ a v).
    destruct v as [p|].
    + rewrite put_mid' by auto.
      rewrite (cons_mid _ a' (Some (length h))).
      destruct (IH (h ++ [f (rd C u h p) (length a)]) (a ++ [Some p]) (a' ++ [Some (length h)]) b b' (Forall_grow C h [f (rd C u h p) (length a)] _ F')) as (new & vs' & E & L' & V & P).
      { rewrite !app_length; cbn; lia. }
      rewrite E. exists (f (rd C u h p) (length a) :: new), (Some (length h) :: vs'). rewrite <- !app_assoc in *. cbn [app] in *.
      split; auto. split; [cbn; lia|]. split.
      * cbn [view map option_map]. unfold mapi. cbn [length seq combine map option_map fst snd].
        f_equal; [f_equal; rewrite app_nth2, Nat.sub_diag by lia; reflexivity|].
        fold (view u (h ++ f (rd C u h p) (length a) :: new) vs'). rewrite V.
        fold (view u h vs). fold (view u (h ++ [f (rd C u h p) (length a)]) vs). rewrite view_grow by auto.
        rewrite app_length, Nat.add_1_r. reflexivity.
      * cbn [ptrs flat_map app length seq]. f_equal. fold (ptrs vs'). rewrite P, app_length, Nat.add_1_r. reflexivity.
    + rewrite (cons_mid _ a' None).
      destruct (IH h (a ++ [None]) (a' ++ [None]) b b' F') as (new & vs' & E & L' & V & P).
      { rewrite !app_length; cbn; lia. }
      rewrite E. exists new, (None :: vs'). rewrite <- !app_assoc in *. cbn [app] in *. split; auto. split; [cbn; lia|].
      split; [|auto]. cbn [view map option_map]. unfold mapi. cbn [length seq combine map option_map fst snd]. f_equal.
      fold (view u (h ++ new) vs'). rewrite V. rewrite app_length, Nat.add_1_r. reflexivity.
Qed.
Lemma map_ok : forall f h a es, rep a es -> owned h es ->
  makes C u h (spec_map f (view u h es)) (map_cmd C u M f h a) /\
  (length es + 17 <= M -> exists h' b, map_cmd C u M f h a = Some (Done (h', b))).
Proof.
  intros f h a es (k & HS & HC) (O1 & O2). unfold map_cmd. rewrite HC.
  set (m := if length es =? 0 then 1 else length es). assert (Lm : length es <= m <= length es + 1) by (subst m; destruct (Nat.eqb_spec (length es) 0); lia).
  assert (OK : forall b, sizer M empty m = Some b ->
    exists new l bs kk, map_loop C u f h (sl a) (sl b) 0 (length es) = Some (h ++ new, l) /\ l = bs ++ repeat None kk /\ length bs = length es /\
      view u (h ++ new) bs = spec_map f (view u h es) /\ ptrs bs = seq (length h) (length new)).
  { intros b Eb. destruct (rep_sizer M empty [] m rep_empty) as [E|(b' & kb & E & BS & BC & BL)]; [congruence|].
    rewrite E in Eb. injection Eb as ->. cbn [app length Nat.add] in *. rewrite BS, HS.
    destruct (map_loop_ok f es h [] [] (repeat None k) (repeat None (kb - length es)) O2 eq_refl) as (new & vs' & EM & L & V & P).
    replace kb with (length es + (kb - length es)) by lia. rewrite repeat_app.
    cbn [app length] in EM. rewrite EM. exists new, (vs' ++ repeat None (kb - length es)), vs', (kb - length es). auto. }
  assert (OK2 : forall b, sizer M empty m = Some b -> exists new b' bs, 
     match map_loop C u f h (sl a) (sl b) 0 (length es) with
     | Some (h0, l) => match set_length (mkA l (cnt b)) (length es) with Some b0 => Some (Done (h0, b0)) | None => None end | None => None end = Some (@Done C _ (h ++ new, b')) /\
      rep b' bs /\ view u (h ++ new) bs = spec_map f (view u h es) /\ ptrs bs = seq (length h) (length new)).
  { intros b Eb. destruct (OK b Eb) as (new & l & bs & kk & EM & EL & LB & V & P). rewrite EM. unfold set_length. cbn [sl].
    match goal with |- context [?a <=? ?b] => destruct (Nat.leb_spec a b) as [HL|HL]; [|rewrite EL, app_length in HL; lia] end.
    exists new, (mkA l (length es)), bs. split; auto. split; auto. exists kk. cbn. auto. }
  split.
  - destruct (sizer M empty m) as [b|]; [|left; eauto].
    destruct (OK2 b eq_refl) as (new & b' & bs & E & R & V & P). rewrite E. right. exists new, b', bs.
    split; auto. split; auto. split; [apply owned_fresh; auto|]. split; auto. eapply fresh_ge; eauto.
  - intros L. destruct (rep_sizer_ok M empty [] m rep_empty ltac:(lia)) as (b & ? & E & _). rewrite E in *.
    destruct (OK2 b eq_refl) as (new & b' & bs & EE & _). rewrite EE. eauto.
Qed.

(** ** filter *)
Fixpoint kept (f : C -> nat -> bool) h (o : nat) (vs : list slot) : list nat :=
  match vs with
  | [] => []
  | Some p :: r => if f (nth p h u) o then p :: kept f h (S o) r else kept f h (S o) r
  | None :: r => kept f h (S o) r
  end.
Lemma kept_len : forall f h vs o, length (kept f h o vs) <= length vs.
Proof. induction vs as [|[p|] vs IH]; intros o; cbn [kept length]; [lia| |specialize (IH (S o)); lia]. specialize (IH (S o)). destruct (f _ _); cbn [length]; lia. Qed.
Lemma kept_view : forall f h vs o, map (fun p => nth p h u) (kept f h o vs) = map snd (filter (fun ix => f (snd ix) (fst ix)) (pres o (view u h vs))).
Proof.
  induction vs as [|[p|] vs IH]; intros o; cbn [kept view map option_map]; [reflexivity| |].
  - rewrite pres_some. cbn [filter snd fst]. destruct (f (nth p h u) o); cbn [map snd]; rewrite IH; reflexivity.
  - rewrite pres_none. apply IH.
Qed.
Lemma filter_loop_ok : forall f h vs a b d k, length vs <= k ->
  filter_loop C u f h (a ++ vs ++ b) (d ++ repeat None k) (length a) (length d) (length vs) =
  Some (d ++ map Some (kept f h (length a) vs) ++ repeat None (k - length (kept f h (length a) vs)), length d + length (kept f h (length a) vs)).
Proof.
  induction vs as [|v vs IH]; intros a b d k L.
  - cbn. rewrite Nat.sub_0_r, Nat.add_0_r. reflexivity.
  - cbn [length filter_loop app] in *. rewrite get_mid. rewrite (cons_mid _ a v (vs ++ b)), (len_mid _ a v).
    destruct v as [p|]; cbn [kept].
    + unfold rd. destruct (f (nth p h u) (length a)).
      * destruct k as [|k]; [lia|]. cbn [repeat]. rewrite put_mid. rewrite (cons_mid _ d (Some p)), (len_mid _ d (Some p)). rewrite IH by lia.
        rewrite !app_length. cbn [length map Nat.sub]. rewrite !Nat.add_1_r, <- app_assoc. cbn [app]. do 2 f_equal. lia.
      * rewrite IH by lia. rewrite !app_length. cbn [length]. rewrite !Nat.add_1_r. reflexivity.
    + rewrite IH by lia. rewrite !app_length. cbn [length]. rewrite !Nat.add_1_r. reflexivity.
Qed.
Lemma filter_ok : forall f h a es, rep a es ->
  filter_cmd C u M f h a = Some (Failed empty h) \/
  exists b, filter_cmd C u M f h a = Some (Done b) /\ rep b (map Some (kept f h 0 es)) /\
    view u h (map Some (kept f h 0 es)) = map Some (spec_filter f (view u h es)).
Proof.
  intros f h a es (k & HS & HC). unfold filter_cmd. rewrite HC.
  set (m := if length es =? 0 then 1 else length es). assert (Lm : length es <= m <= length es + 1) by (subst m; destruct (Nat.eqb_spec (length es) 0); lia).
  destruct (rep_sizer M empty [] m rep_empty) as [E|(b & kb & E & BS & BC & BL)]; rewrite E; [auto|right].
  cbn [app length Nat.add] in *. rewrite BS, HS.
  pose proof (filter_loop_ok f h es [] (repeat None k) [] kb ltac:(lia)) as FL. cbn [app length Nat.add] in FL. rewrite FL.
  pose proof (kept_len f h es 0) as KL.
  unfold set_length. cbn [sl].
  match goal with |- context [?a <=? ?b] => destruct (Nat.leb_spec a b) as [HL|HL]; [|rewrite app_length, map_length in HL; lia] end.
  eexists; split; [reflexivity|]. split; [eexists; cbn [sl cnt]; rewrite map_length; eauto|].
  unfold spec_filter. rewrite pres_0, <- kept_view. unfold view. rewrite !map_map. reflexivity.
Qed.
Lemma filter_done : forall f h a es, rep a es -> length es + 17 <= M -> exists b, filter_cmd C u M f h a = Some (Done b).
Proof.
  intros f h a es R L. destruct (filter_ok f h a es R) as [E|(b & E & _)]; [|eauto]. exfalso.
  unfold filter_cmd in E. destruct R as (k & HS & HC). rewrite HC in E.
  destruct (rep_sizer_ok M empty [] (if length es =? 0 then 1 else length es) rep_empty) as (b & ? & E' & _).
  { destruct (Nat.eqb_spec (length es) 0); lia. }
  rewrite E' in E. repeat match type of E with match ?e with _ => _ end = _ => destruct e; try discriminate end.
Qed.

(** ** find, some, every *)
Lemma find_loop_ok : forall f h vs a b fv,
  find_loop C u false f h (a ++ vs ++ b) (length a) (length vs) fv =
  Some (match find (fun ix => f (snd ix) (fst ix)) (pres (length a) (view u h vs)) with
        | Some ix => (true, fst ix)
        | None => (match pres (length a) (view u h vs) with [] => fv | _ => false end, length a + length vs)
        end).
Proof.
  induction vs as [|v vs IH]; intros a b fv; [cbn; rewrite Nat.add_0_r; reflexivity|]. cbn [length find_loop app]. rewrite get_mid.
  rewrite (cons_mid _ a v (vs ++ b)), (len_mid _ a v).
  destruct v as [p|]; cbn [view map option_map]; fold (view u h vs).
  - rewrite pres_some. cbn [find snd fst]. unfold rd. destruct (f (nth p h u) (length a)); [reflexivity|]. rewrite IH.
    rewrite app_length. cbn [length]. rewrite Nat.add_1_r. destruct (find _ _); [reflexivity|]. do 2 f_equal; [destruct (pres _ _); reflexivity|lia].
  - rewrite pres_none. rewrite IH. rewrite app_length. cbn [length]. rewrite Nat.add_1_r. destruct (find _ _); [reflexivity|]. do 2 f_equal. lia.
Qed.
Lemma every_loop_ok : forall f h vs a b fv,
  option_map fst (find_loop C u true f h (a ++ vs ++ b) (length a) (length vs) fv) =
  Some (match pres (length a) (view u h vs) with [] => fv | l => forallb (fun ix => f (snd ix) (fst ix)) l end).
Proof.
  induction vs as [|v vs IH]; intros a b fv; [reflexivity|]. cbn [length find_loop app]. rewrite get_mid.
  rewrite (cons_mid _ a v (vs ++ b)), (len_mid _ a v).
  destruct v as [p|]; cbn [view map option_map]; fold (view u h vs).
  - rewrite pres_some. cbn [forallb snd fst]. unfold rd. destruct (f (nth p h u) (length a)); cbn [negb andb]; [|reflexivity]. rewrite IH.
    rewrite app_length. cbn [length]. rewrite Nat.add_1_r. destruct (pres _ _); reflexivity.
  - rewrite pres_none. rewrite IH. rewrite app_length. cbn [length]. rewrite Nat.add_1_r. reflexivity.
Qed.
Lemma find_pres_get : forall f h es ix, find f (pres 0 (view u h es)) = Some ix -> exists p, nth_error es (fst ix) = Some (Some p) /\ nth p h u = snd ix.
Proof.
  intros f h es ix H. apply find_some in H. destruct H as (H & _). clear f.
  assert (G : forall es o, In ix (pres o (view u h es)) -> exists p, o <= fst ix /\ nth_error es (fst ix - o) = Some (Some p) /\ nth p h u = snd ix).
  { clear. induction es as [|[p|] es IH]; intros o H; cbn [view map option_map] in H; [destruct H| |].
    - rewrite pres_some in H. destruct H as [<-|H].
      + exists p. cbn [fst snd]. rewrite Nat.sub_diag. auto.
      + destruct (IH _ H) as (q & L & E & V). exists q. split; [lia|]. replace (fst ix - o) with (S (fst ix - S o)) by lia. auto.
    - rewrite pres_none in H. destruct (IH _ H) as (q & L & E & V). exists q. split; [lia|]. replace (fst ix - o) with (S (fst ix - S o)) by lia. auto. }
  destruct (G es 0 H) as (p & _ & E & V). rewrite Nat.sub_0_r in E. eauto.
Qed.

(** ** reduce *)
Lemma reduce_up_ok : forall f h vs a b n c,
  reduce_loop C u false f h (a ++ vs ++ b) (length a) (length vs) n (Some c) = Some (Some (spec_reduce f c (pres (length a) (view u h vs)))).
Proof.
  induction vs as [|v vs IH]; intros a b n c; [reflexivity|]. cbn [length reduce_loop app]. rewrite get_mid.
  rewrite (cons_mid _ a v (vs ++ b)), (len_mid _ a v).
  destruct v as [p|]; cbn [view map option_map]; fold (view u h vs).
  - rewrite pres_some. rewrite IH. unfold spec_reduce. cbn [fold_left fst snd]. unfold rd. rewrite app_length, Nat.add_1_r. reflexivity.
  - rewrite pres_none, IH. rewrite app_length, Nat.add_1_r. reflexivity.
Qed.
Lemma reduce_down_ok : forall f h vs b n c,
  reduce_loop C u true f h (vs ++ b) (length vs - 1) (length vs) n (Some c) = Some (Some (spec_reduce f c (rev (pres 0 (view u h vs))))).
Proof.
  induction vs as [|v vs IH] using rev_ind; intros b n c; [reflexivity|]. rewrite app_length, Nat.add_1_r. cbn [reduce_loop].
  replace (S (length vs) - 1) with (length vs) by lia. rewrite <- app_assoc. cbn [app]. rewrite get_mid.
  rewrite view_app, pres_app, rev_app_distr, view_len. cbn [Nat.add]. unfold spec_reduce. rewrite fold_left_app.
  destruct v as [p|]; cbn [view map option_map].
  - rewrite pres_some. cbn [rev pres length seq combine flat_map app fold_left snd fst]. unfold rd. apply IH.
  - rewrite pres_none. cbn [pres length seq combine flat_map rev app fold_left]. apply IH.
Qed.

(** ** join, without holes *)
Lemma join_ok : forall ts sep h ps a b, length a <> 0 ->
  join_loop C u ts sep h (a ++ map Some ps ++ b) (length a) (length ps) =
  Some (List.concat (map (fun p => sep ++ ts (nth p h u)) ps)).
Proof.
  induction ps as [|p ps IH]; intros a b L; [reflexivity|]. cbn [length join_loop map app]. rewrite get_mid.
  rewrite (cons_mid _ a (Some p)), (len_mid _ a (Some p)). rewrite IH by (rewrite app_length; cbn; lia).
  destruct (Nat.eqb_spec (length a) 0); [lia|]. cbn [List.concat]. rewrite <- app_assoc. reflexivity.
Qed.
Lemma spec_join_eq : forall sep x l, spec_join sep (x :: l) = x ++ List.concat (map (fun y => sep ++ y) l).
Proof.
  intros sep x l. revert x. induction l as [|y l IH]; intros x; [cbn; rewrite app_nil_r; reflexivity|].
  change (spec_join sep (x :: y :: l)) with (x ++ sep ++ spec_join sep (y :: l)). rewrite IH. cbn [map List.concat]. rewrite <- app_assoc. reflexivity.
Qed.

(** ** sort *)
Lemma sort_sub_order : forall cmp desc h, qsort_order (fun x y => (- cmp x y)%Z) -> qsort_order (sort_sub C u cmp desc h).
Proof.
  intros cmp desc h (A & B & T). unfold sort_sub.
  assert (S1 : forall x y : C, (cmp x y > 0 <-> cmp y x < 0)%Z) by (intros x y; specialize (B x y); cbv beta in B; lia).
  assert (S0 : forall x y : C, (cmp x y = 0 <-> cmp y x = 0)%Z). { intros x y. pose proof (S1 x y). pose proof (S1 y x). lia. }
  assert (T1 : forall x y z : C, (cmp x y >= 0 -> cmp y z >= 0 -> cmp x z >= 0)%Z). { intros x y z H1 H2. specialize (T x y z). cbv beta in T. lia. }
  assert (T2 : forall x y z : C, (cmp x y <= 0 -> cmp y z <= 0 -> cmp x z <= 0)%Z).
  { intros x y z H1 H2. pose proof (T1 z y x). pose proof (S1 x y). pose proof (S1 y x). pose proof (S1 y z). pose proof (S1 z y). pose proof (S1 x z). pose proof (S1 z x). lia. }
  assert (R0 : forall x : C, cmp x x = 0%Z). { intros x. specialize (A x). cbv beta in A. lia. }
  split; [|split].
  - intros [p|]; destruct desc; try rewrite R0; reflexivity.
  - intros [p|] [q|]; destruct desc; try lia.
    + pose proof (S1 (rd C u h p) (rd C u h q)). pose proof (S1 (rd C u h q) (rd C u h p)). lia.
    + pose proof (S1 (rd C u h p) (rd C u h q)). pose proof (S1 (rd C u h q) (rd C u h p)). lia.
  - intros [p|] [q|] [r|]; destruct desc; cbv zeta; intros H1 H2; try lia.
    + eapply T2; eauto.
    + pose proof (T1 (rd C u h p) (rd C u h q) (rd C u h r)). lia.
Qed.

Lemma sorted_app_inv : forall (A : Type) (sub : A -> A -> Z) a b, sorted_by sub (a ++ b) -> forall x y, In x a -> In y b -> (sub x y <= 0)%Z.
Proof.
  induction a as [|z a IH]; intros b H x y Hx Hy; [destruct Hx|]. inversion H as [|? ? F S]; subst. destruct Hx as [->|Hx].
  - rewrite Forall_forall in F. apply F. apply in_or_app; auto.
  - eapply IH; eauto.
Qed.

(** the runs of equal elements reduced to their first element *)
Fixpoint dedup_from (sub : slot -> slot -> Z) (last : slot) (l : list slot) : list slot :=
  match l with
  | [] => []
  | y :: r => if (sub last y =? 0)%Z then dedup_from sub last r else y :: dedup_from sub y r
  end.
Lemma uniq_loop_ok : forall sub post pre x junk rest dup,
  NoDup (ptrs (pre ++ [x] ++ post)) -> Forall (fun s => s <> None) (pre ++ [x] ++ post) -> length junk = dup ->
  exists junk', length junk' = dup + length post - length (dedup_from sub x post) /\
  length (dedup_from sub x post) <= length post /\
  uniq_loop sub (pre ++ [x] ++ junk ++ post ++ rest) (length pre) (length pre + 1 + dup) (length post) dup =
  Some (pre ++ [x] ++ dedup_from sub x post ++ junk' ++ rest, dup + (length post - length (dedup_from sub x post))).
Proof.
  induction post as [|y post IH]; intros pre x junk rest dup ND F LJ.
  - exists junk. cbn [dedup_from length]. split; [lia|]. split; [lia|]. cbn. rewrite Nat.add_0_r. reflexivity.
  - cbn [length uniq_loop]. cbn [app]. rewrite get_mid.
    replace (pre ++ x :: junk ++ y :: post ++ rest) with ((pre ++ x :: junk) ++ y :: post ++ rest) by (rewrite <- app_assoc; reflexivity).
    rewrite get_mid' by (rewrite app_length; cbn [length]; lia).
    assert (NS : match x, y with Some p, Some q => p =? q | None, None => true | _, _ => false end = false).
    { destruct x as [p|]; destruct y as [q|]; auto.
      - apply Nat.eqb_neq. intro; subst q. rewrite ptrs_app in ND. cbn [ptrs flat_map app] in ND. apply NoDup_app_iff in ND. destruct ND as (_ & ND & _).
        inversion ND as [|? ? NI _]; subst. apply NI. left; auto.
      - rewrite !Forall_app in F. destruct F as (_ & Fx & _). inversion Fx; congruence. }
    rewrite NS. cbn [dedup_from]. destruct (Z.eqb_spec (sub x y) 0) as [E0|E0].
    + rewrite put_mid' by (rewrite app_length; cbn [length]; lia).
      assert (ND2 : NoDup (ptrs (pre ++ [x] ++ post))).
      { assert (O : owned (repeat 0 (S (list_max (ptrs (pre ++ [x] ++ y :: post))))) (pre ++ [x] ++ y :: post)).
        { split; auto. apply Forall_forall. intros p Hp. rewrite repeat_length. assert (p <= list_max (ptrs (pre ++ [x] ++ y :: post))); [|lia].
          pose proof (proj1 (list_max_le (ptrs (pre ++ [x] ++ y :: post)) _) (Nat.le_refl _)) as G. rewrite Forall_forall in G. apply G; auto. }
        rewrite app_assoc in O. pose proof (owned_sub nat _ (pre ++ [x]) [y] post O) as (G & _). rewrite <- app_assoc in G. exact G. }
      assert (F2 : Forall (fun s => s <> None) (pre ++ [x] ++ post)).
      { rewrite !Forall_app in *. destruct F as (F1 & F2 & F3). inversion F3; auto. }
      destruct (IH pre x (junk ++ [None]) rest (S dup) ND2 F2) as (junk' & LJ' & LD & E). { rewrite app_length; cbn; lia. }
      exists junk'. split; [lia|]. split; [lia|].
      replace ((pre ++ x :: junk) ++ None :: post ++ rest) with (pre ++ [x] ++ (junk ++ [None]) ++ post ++ rest) by (rewrite <- !app_assoc; reflexivity).
      replace (S (length pre + 1 + dup)) with (length pre + 1 + S dup) by lia. rewrite E. cbn [app]. do 2 f_equal; lia.
    + assert (ND2 : NoDup (ptrs ((pre ++ [x]) ++ [y] ++ post))) by (rewrite <- app_assoc; exact ND).
      assert (F2 : Forall (fun s => s <> None) ((pre ++ [x]) ++ [y] ++ post)) by (rewrite <- app_assoc; exact F).
      destruct (Nat.eqb_spec (S (length pre)) (length pre + 1 + dup)) as [EQ|NE].
      * assert (dup = 0) by lia. subst dup. destruct junk; [|discriminate].
        destruct (IH (pre ++ [x]) y [] rest 0 ND2 F2 eq_refl) as (junk' & LJ' & LD & E).
        exists junk'. cbn [length]. split; [lia|]. split; [lia|].
        replace ((pre ++ [x]) ++ y :: post ++ rest) with ((pre ++ [x]) ++ [y] ++ [] ++ post ++ rest) by reflexivity.
        replace (S (length pre)) with (length (pre ++ [x])) by (rewrite app_length; cbn; lia).
        replace (S (length pre + 1 + 0)) with (length (pre ++ [x]) + 1 + 0) by (rewrite app_length; cbn; lia).
        rewrite E. rewrite <- !app_assoc. cbn [app Nat.add]. do 2 f_equal; lia.
      * destruct junk as [|j junk]; [cbn in LJ; lia|].
        replace ((pre ++ x :: j :: junk) ++ y :: post ++ rest) with ((pre ++ [x]) ++ j :: (junk ++ y :: post ++ rest)) by (rewrite <- !app_assoc; reflexivity).
        rewrite put_mid' by (rewrite app_length; cbn; lia).
        destruct (IH (pre ++ [x]) y (junk ++ [y]) rest dup ND2 F2) as (junk' & LJ' & LD & E). { rewrite app_length; cbn in *; lia. }
        exists junk'. cbn [length]. split; [lia|]. split; [lia|].
        replace ((pre ++ [x]) ++ y :: junk ++ y :: post ++ rest) with ((pre ++ [x]) ++ [y] ++ (junk ++ [y]) ++ post ++ rest) by (rewrite <- !app_assoc; reflexivity).
        replace (S (length pre)) with (length (pre ++ [x])) by (rewrite app_length; cbn; lia).
        replace (S (length pre + 1 + dup)) with (length (pre ++ [x]) + 1 + dup) by (rewrite app_length; cbn; lia).
        rewrite E. rewrite <- !app_assoc. cbn [app]. do 2 f_equal; lia.
Qed.

Lemma dedup_in : forall sub l x y, In y (dedup_from sub x l) -> In y l.
Proof. induction l as [|z l IH]; intros x y H; [destruct H|]. cbn [dedup_from] in H. destruct (sub x z =? 0)%Z; [right; eauto|]. destruct H as [->|H]; [left; auto|right; eauto]. Qed.
(** every element of the sorted list equals a kept one, and kept elements are strictly increasing *)
Lemma dedup_covers : forall sub l x, qsort_order sub -> forall y, In y l -> exists z, In z (x :: dedup_from sub x l) /\ sub z y = 0%Z.
Proof.
  intros sub l x Q. pose proof Q as (RF & _ & _). revert x. induction l as [|w l IH]; intros x y H; [destruct H|]. cbn [dedup_from]. destruct (Z.eqb_spec (sub x w) 0) as [E|E].
  - destruct H as [->|H]; [exists x; split; [left|]; auto|]. apply IH; auto.
  - destruct H as [->|H].
    + exists y. split; [right; left; auto|apply RF].
    + destruct (IH w y H) as (z & Hz & Ez). exists z. split; [right; auto|auto].
Qed.
Inductive strict_by {A} (sub : A -> A -> Z) : list A -> Prop :=
| st_nil : strict_by sub []
| st_cons x l : Forall (fun y => (sub x y < 0)%Z) l -> strict_by sub l -> strict_by sub (x :: l).
Lemma dedup_strict : forall sub l x, qsort_order sub -> sorted_by sub (x :: l) -> strict_by sub (x :: dedup_from sub x l).
Proof.
  intros sub l x Q. pose proof Q as (RF & AS & TR). revert x. induction l as [|w l IH]; intros x H; cbn [dedup_from]; [constructor; constructor|].
  inversion H as [|? ? F S]; subst. inversion S as [|? ? F2 S2]; subst. inversion F as [|? ? H1 F']; subst.
  destruct (Z.eqb_spec (sub x w) 0) as [E|E].
  - apply IH. constructor; auto.
  - constructor; [|apply IH; auto]. constructor; [lia|]. apply Forall_forall. intros y Hy. apply dedup_in in Hy. rewrite Forall_forall in F2.
    specialize (F2 _ Hy). specialize (TR y x w). pose proof (AS x y). pose proof (AS y x). pose proof (AS w y). pose proof (AS y w). pose proof (AS x w). pose proof (AS w x).
    rewrite Forall_forall in F'. specialize (F' _ Hy). destruct (Z.eq_dec (sub x y) 0); [|lia]. exfalso.
    assert (sub y x <= 0)%Z by lia. assert (sub y w <= 0)%Z.
    { apply TR; lia. } assert (sub w y = 0)%Z by lia. assert (sub w x <= 0)%Z by (apply (proj2 (proj2 Q) w y x); lia). lia.
Qed.
End Q.
