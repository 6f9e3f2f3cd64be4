(** Array operations: splice, histories. *)
From Coq Require Import ZArith List Bool Lia Permutation.
From Verif Require Import Bits ArrayModel ArraySpec ArrayProofs ArrayProofs2.
Import ListNotations.
Local Open Scope nat_scope.

Section Q.
Variable C : Type.
Variable u : C.
Variable M : nat.
Implicit Types h : list C.

Lemma rep_empty : rep empty [].
Proof. exists 0. auto. Qed.

(** ** push, in any case *)
Lemma array_set_ge : forall a es v n, rep a es -> length es <= n ->
  array_set M a v n = Some None \/
  exists a', array_set M a v n = Some (Some a') /\ rep a' (es ++ repeat None (n - length es) ++ [v]).
Proof.
  intros a es v n R Hn. unfold array_set.
  destruct (rep_sizer M a es (n + 1) R) as [H|(a1 & k & H & HS & HC & L)]; rewrite H; [auto|right].
  assert (EK : k = (n - length es) + S (length es + k - n - 1)) by lia. rewrite HS, EK, repeat_app. cbn [repeat].
  rewrite app_assoc. rewrite put_mid' by (rewrite app_length, repeat_length; lia). cbn [cnt]. rewrite HC.
  destruct (Nat.ltb_spec (Nat.max (length es) (n + 1)) (n + 1)); [lia|].
  eexists; split; [reflexivity|]. exists (length es + k - n - 1). cbn [sl cnt]. rewrite <- !app_assoc. split; auto.
  rewrite !app_length, repeat_length. cbn. lia.
Qed.
Lemma push_loop_any : forall args h a es c0 i, rep a es -> owned h (es ++ args) -> length es <= c0 + i ->
  exists a' es', push_loop M a c0 i args = Some a' /\ rep a' es' /\ owned h es'.
Proof.
  induction args as [|v args IH]; intros h a es c0 i R O L; cbn [push_loop].
  - exists a, es. rewrite app_nil_r in O. auto.
  - assert (O2 : owned h (es ++ args)) by (apply owned_sub with (b := [v]); exact O).
    destruct (c0 + i <? M); [|apply IH with (es := es); auto; lia].
    destruct (array_set_ge a es v (c0 + i) R L) as [H|(a1 & H & R1)]; rewrite H.
    + apply IH with (es := es); auto; lia.
    + apply IH with (es := es ++ repeat None (c0 + i - length es) ++ [v]); auto.
      * destruct O as (O1 & O3). unfold owned. rewrite !ptrs_app, ptrs_repeat in *. cbn [app]. rewrite <- app_assoc.
        change (v :: args) with ([v] ++ args) in *. rewrite ptrs_app in *. auto.
      * rewrite !app_length, repeat_length. cbn. lia.
Qed.
Lemma push_any : forall args h a es, rep a es -> owned h (es ++ args) ->
  exists a' es' n, push M a args = Some (a', n) /\ rep a' es' /\ owned h es'.
Proof.
  intros args h a es R O. unfold push. pose proof R as (k & _ & HC).
  destruct (push_loop_any args h a es (cnt a) 0 R O ltac:(lia)) as (a' & es' & H & R' & O'). rewrite H. eauto 6.
Qed.

(** ** splice *)
Definition sp_start (n start : Z) : Z := (let s := if start <? 0 then n + start else start in if s <? 0 then 0 else s)%Z.
Definition sp_many (n s : Z) (howmany : option Z) : Z :=
  (match howmany with
   | None => n - s
   | Some k => let k := if n - s <=? k then n - s else k in if k <? 0 then n - s else k
   end)%Z.
Lemma sp_start_spec : forall n s, sp_start n s = splice_start n s.
Proof. intros. unfold sp_start, splice_start, from_end. destruct (s <? 0)%Z; cbv zeta; destruct (Z.ltb_spec (n + s) 0); destruct (Z.ltb_spec s 0); lia. Qed.
Lemma sp_many_spec : forall n s k, (0 <= n)%Z -> (s <= n)%Z -> Z.to_nat (sp_many n (splice_start n s) k) = splice_count n (splice_start n s) k.
Proof.
  intros n s k Hn H. assert (splice_start n s <= n)%Z. { unfold splice_start, from_end. destruct (Z.ltb_spec s 0); lia. }
  unfold sp_many, splice_count. destruct k as [k|]; auto. f_equal. cbv zeta.
  destruct (Z.leb_spec (n - splice_start n s) k); destruct (Z.ltb_spec k 0); destruct (Z.ltb_spec (n - splice_start n s) 0); lia.
Qed.
Lemma sp_bounds : forall n s k, (0 <= n)%Z -> (s <= n)%Z -> (0 <= sp_start n s)%Z /\ (0 <= sp_many n (sp_start n s) k)%Z /\ (sp_start n s + sp_many n (sp_start n s) k <= n)%Z.
Proof.
  intros n s k Hn H. rewrite sp_start_spec. assert (X : (0 <= splice_start n s <= n)%Z). { unfold splice_start, from_end. destruct (Z.ltb_spec s 0); lia. }
  unfold sp_many. destruct k as [k|]; [|lia]. cbv zeta. destruct (Z.leb_spec (n - splice_start n s) k); destruct (Z.ltb_spec k 0); destruct (Z.ltb_spec (n - splice_start n s) 0); lia.
Qed.

(** the result of splice at slot level: A D T are the parts before, taken and after *)
Lemma splice_parts : forall h a A D T s k items, rep a (A ++ D ++ T) -> Forall (fun p => p < length h) items ->
  (s <= Z.of_nat (length (A ++ D ++ T)))%Z ->
  sp_start (Z.of_nat (length (A ++ D ++ T))) s = Z.of_nat (length A) ->
  sp_many (Z.of_nat (length (A ++ D ++ T))) (Z.of_nat (length A)) k = Z.of_nat (length D) ->
  (length D + 16 <= M -> length (A ++ T) + length items + 19 <= M ->
   exists a' b, splice C u M h a s k items = Some (Done (h ++ map (rd C u h) items, a', b)) /\
     rep a' (A ++ map Some (seq (length h) (length items)) ++ T) /\ rep b D) /\
  ((exists a' b, splice C u M h a s k items = Some (Done (h ++ map (rd C u h) items, a', b)) /\
     rep a' (A ++ map Some (seq (length h) (length items)) ++ T) /\ rep b D) \/
   splice C u M h a s k items = Some (Failed a h) \/
   exists a', splice C u M h a s k items = Some (Failed a' h) /\ rep a' (A ++ T ++ repeat None (length D))).
Proof.
  intros h a A D T s k items (kk & HS & HC) F HN S1 S2.
  assert (Body :
    forall (P : option (res C (list C * arr * arr)) -> Prop),
      (sizer M empty (length D) = None -> P (Some (Failed a h))) ->
      (forall a', sizer M (mkA (A ++ T ++ repeat None (length D) ++ repeat None kk) (cnt a)) (length (A ++ T) + length items + 3) = None ->
         rep a' (A ++ T ++ repeat None (length D)) -> P (Some (Failed a' h))) ->
      (forall a' b, rep a' (A ++ map Some (seq (length h) (length items)) ++ T) -> rep b D -> P (Some (Done (h ++ map (rd C u h) items, a', b)))) ->
      P (splice C u M h a s k items)).
  { intros P P1 P2 P3. unfold splice. rewrite HC. destruct (Z.ltb_spec (Z.of_nat (length (A ++ D ++ T))) s); [lia|].
    cbv zeta.
    repeat match goal with |- context [if ((if (s <? 0)%Z then ?x else s) <? 0)%Z then 0%Z else ?y] =>
      change (if ((if (s <? 0)%Z then x else s) <? 0)%Z then 0%Z else y) with (sp_start (Z.of_nat (length (A ++ D ++ T))) s) end.
    rewrite S1.
    unfold sp_many in S2. cbv zeta in S2.
    rewrite S2. destruct (Z.ltb_spec (Z.of_nat (length D)) 0); [lia|]. rewrite !Nat2Z.id.
    destruct (rep_sizer M empty [] (length D) rep_empty) as [E|(b & kb & E & BS & BC & BL)]; rewrite E; [apply P1; auto|].
    cbn [app length Nat.add] in BS, BL. rewrite BS, HS.
    replace kb with (length D + (kb - length D)) by lia. rewrite repeat_app.
    rewrite <- !app_assoc.
    pose proof (take_loop_ok D A (T ++ repeat None kk) [] (repeat None (kb - length D))) as TL. cbn [app length] in TL. rewrite TL. clear TL.
    unfold set_length at 1. cbn [sl].
    match goal with |- context [?a <=? ?b] => destruct (Nat.leb_spec a b) as [HL|HL]; [|rewrite app_length in HL; lia] end.
    assert (RB : rep (mkA (D ++ repeat None (kb - length D)) (length D)) D) by (eexists; cbn [sl cnt]; eauto).
    assert (DL : (if length D =? 0 then Some (A ++ repeat None (length D) ++ T ++ repeat None kk)
                  else down_loop (length (A ++ D ++ T) - (length A + length D)) (length A + length D) (length D) (A ++ repeat None (length D) ++ T ++ repeat None kk))
                 = Some (A ++ T ++ repeat None (length D) ++ repeat None kk)).
    { destruct (Nat.eqb_spec (length D) 0) as [E0|E0]; [rewrite E0; reflexivity|].
      replace (length (A ++ D ++ T) - (length A + length D)) with (length T) by (rewrite !app_length; lia).
      apply down_loop_ok. lia. }
    rewrite DL. clear DL.
    replace (length (A ++ D ++ T) - length D) with (length (A ++ T)) by (rewrite !app_length; lia).
    assert (R3 : rep (mkA (A ++ T ++ repeat None (length D) ++ repeat None kk) (length (A ++ D ++ T))) (A ++ T ++ repeat None (length D))).
    { exists kk. cbn [sl cnt]. rewrite <- !app_assoc. split; auto. rewrite !app_length, repeat_length. lia. }
    destruct (rep_sizer M _ _ (length (A ++ T) + length items + 3) R3) as [E2|(a2 & k2 & E2 & AS & AC & AL)]; rewrite E2.
    { apply P2; auto. rewrite HC. auto. }
    assert (X : exists r, sl a2 = A ++ T ++ repeat None (length items) ++ repeat None r).
    { rewrite !app_length, repeat_length in *. exists (length D + k2 - length items). rewrite AS, <- !app_assoc. do 2 f_equal. rewrite <- !repeat_app. f_equal. lia. }
    destruct X as (r & X). rewrite X.
    assert (MID : match items with
             | [] => Some (h, A ++ T ++ repeat None (length items) ++ repeat None r)
             | _ => match up_loop (length (A ++ T) - length A) (length A) (length items) (A ++ T ++ repeat None (length items) ++ repeat None r) with
                    | None => None
                    | Some l => ins_loop C u h l (length A) items
                    end
             end = Some (h ++ map (rd C u h) items, A ++ map Some (seq (length h) (length items)) ++ T ++ repeat None r)).
    { destruct items as [|it items]; [cbn; rewrite app_nil_r; reflexivity|].
      replace (length (A ++ T) - length A) with (length T) by (rewrite app_length; lia).
      rewrite up_loop_ok by (cbn; lia).
      rewrite (ins_loop_ok C u (it :: items) h A (repeat None (length (it :: items)))); auto. apply repeat_length. }
    rewrite MID. unfold set_length. cbn [sl].
    match goal with |- context [?a <=? ?b] => destruct (Nat.leb_spec a b) as [HL2|HL2] end.
    2:{ exfalso. assert (Y : length (sl a2) = length (A ++ T ++ repeat (@None nat) (length items) ++ repeat None r)) by (rewrite X; auto).
        rewrite AS in Y. rewrite !app_length, !repeat_length, ?map_length, ?seq_length in *. lia. }
    apply P3; auto. exists r. cbn [sl cnt]. rewrite <- !app_assoc. split; auto. rewrite !app_length, map_length, seq_length. lia. }
  split.
  - intros L1 L2. apply Body.
    + intros E. exfalso. destruct (rep_sizer_ok M empty [] (length D) rep_empty L1) as (b & ? & E' & _). congruence.
    + intros a' E R. exfalso. match type of E with sizer M ?x _ = None => destruct (sizer_spec M x (length (A ++ T) + length items + 3)) as (? & E' & _); [lia|] end. congruence.
    + intros a' b Ra Rb. eauto.
  - apply Body; eauto 8.
Qed.

Lemma splice_far : forall h a es s k items, rep a es -> (Z.of_nat (length es) < s)%Z ->
  splice C u M h a s k items = Some (Done (h, a, empty)).
Proof. intros h a es s k items (kk & HS & HC) H. unfold splice. rewrite HC. destruct (Z.ltb_spec (Z.of_nat (length es)) s); [reflexivity|lia]. Qed.

Lemma splice_split : forall (es : list slot) s k, (s <= Z.of_nat (length es))%Z ->
  exists A D T, es = A ++ D ++ T /\
   sp_start (Z.of_nat (length es)) s = Z.of_nat (length A) /\
   sp_many (Z.of_nat (length es)) (Z.of_nat (length A)) k = Z.of_nat (length D).
Proof.
  intros es s k H. destruct (sp_bounds (Z.of_nat (length es)) s k ltac:(lia) H) as (B1 & B2 & B3).
  destruct (split_at _ es (Z.to_nat (sp_start (Z.of_nat (length es)) s)) ltac:(lia)) as (A & R & E & LA).
  assert (LR : length es = length A + length R) by (rewrite E, app_length; auto).
  destruct (split_at _ R (Z.to_nat (sp_many (Z.of_nat (length es)) (sp_start (Z.of_nat (length es)) s) k)) ltac:(lia)) as (D & T & E2 & LD).
  exists A, D, T. split; [congruence|]. split; [lia|]. rewrite LA, LD, !Z2Nat.id; auto.
Qed.

(** ** Every call keeps the representation *)
Definition inv h (a : arr) : Prop := exists es, rep a es /\ owned h es.
Definition call_ok h (a : arr) (r : option (list C * arr)) : Prop := exists h' a', r = Some (h', a') /\ inv h' a'.

Lemma owned_new_end : forall h es xs, owned h es -> owned (h ++ xs) (es ++ map Some (seq (length h) (length xs))).
Proof.
  intros. pose proof (owned_insert C h xs [] es []) as I. rewrite !app_nil_r in I. apply I; auto.
Qed.
Lemma owned_new_front : forall h es xs, owned h es -> owned (h ++ xs) (map Some (seq (length h) (length xs)) ++ es).
Proof.
  intros. pose proof (owned_insert C h xs [] [] es) as I. cbn [app] in I. rewrite !app_nil_r in I. apply I; auto.
Qed.

Lemma do_call_inv : forall h a k, inv h a -> call_ok h a (do_call C u M h a k).
Proof.
  intros h a k (es & R & O). destruct k as [xs| | |xs| |c s e|s n xs|n c]; cbn [do_call].
  - destruct (push_any (map Some (seq (length h) (length xs))) (h ++ xs) a es R (owned_new_end _ _ _ O)) as (a' & es' & n & E & R' & O').
    rewrite E. cbn [option_map]. exists (h ++ xs), a'. cbn [fst]. split; auto. exists es'. auto.
  - destruct es as [|e0 es0] using rev_ind.
    + rewrite pop_nil by auto. exists h, a. split; auto. exists []; auto.
    + clear IHes0. destruct (pop_ok a es0 e0 R) as (a' & E & R'). rewrite E. exists h, a'. split; auto. exists es0. split; auto.
      rewrite <- (app_nil_r es0). apply (owned_sub C h es0 [e0] []). rewrite app_nil_r. auto.
  - destruct es as [|v es].
    + rewrite shift_nil by auto. exists h, a. split; auto. exists []; auto.
    + pose proof (shift_ok C u h a es v R) as S. destruct v as [p|]; destruct S as (a' & E & R'); rewrite E; cbn [option_map fst].
      * exists (h ++ [rd C u h p]), a'. split; auto. exists es. split; auto. apply owned_grow. apply (owned_sub C h [] [Some p] es). exact O.
      * exists h, a'. split; auto. exists (es ++ [None]). split; auto. destruct O as (O1 & O2). unfold owned. rewrite ptrs_app, app_nil_r. auto.
  - destruct xs as [|x xs].
    + cbn [length seq map]. unfold unshift. cbn [length Nat.eqb]. eexists _, _. split; [reflexivity|]. exists es. split; auto. apply owned_grow; auto.
    + assert (NE : map Some (seq (length h) (length (x :: xs))) <> []) by (cbn; discriminate).
      destruct (unshift_any C M a es _ R NE) as [E|(a' & E & R')]; rewrite E.
      * eexists _, _. split; [reflexivity|]. exists es. split; auto. apply owned_grow; auto.
      * eexists _, _. split; [reflexivity|]. eexists. split; [exact R'|]. apply owned_new_front; auto.
  - destruct (reverse_ok a es R) as (a' & E & R'). rewrite E. cbn [option_map]. exists h, a'. split; auto. exists (rev es). split; auto.
    eapply owned_perm; [apply ptrs_rev|auto].
  - destruct (fill_ok C u (h ++ [c]) a es (length h) c s e R (owned_grow C h [c] es O)) as (h' & a' & es' & E & R' & O' & W).
    { rewrite app_length; cbn; lia. } { rewrite app_nth2, Nat.sub_diag by lia. reflexivity. }
    rewrite E. exists h', a'. split; auto. exists es'; auto.
  - destruct (Z.lt_ge_cases (Z.of_nat (length es)) s) as [Hs|Hs].
    + rewrite splice_far with (es := es); auto. eexists _, _. split; [reflexivity|]. exists es. split; auto. apply owned_grow; auto.
    + destruct (splice_split es s n Hs) as (A & D & T & E & S1 & S2). subst es.
      destruct (splice_parts (h ++ xs) a A D T s n (seq (length h) (length xs)) R) as (_ & B); auto; try lia.
      { apply Forall_forall. intros p Hp. apply in_seq in Hp. rewrite app_length. lia. }
      rewrite seq_length in B.
      assert (O2 : owned (h ++ xs) (A ++ T)) by (apply owned_grow; eapply owned_sub; eauto).
      destruct B as [(a' & b & E & Ra & Rb)|[E|(a' & E & Ra)]]; rewrite E; eexists _, _; (split; [reflexivity|]).
      * eexists. split; [exact Ra|].
        pose proof (owned_insert C (h ++ xs) (map (rd C u (h ++ xs)) (seq (length h) (length xs))) [] A T O2) as I.
        rewrite map_length, seq_length, app_nil_r in I. exact I.
      * eexists. split; [exact R|]. apply owned_grow; auto.
      * eexists. split; [exact Ra|]. destruct O2 as (O2 & O3). unfold owned. rewrite !ptrs_app, ptrs_repeat, app_nil_r in *. auto.
  - destruct (assign_any C u M h a es n c R O) as [E|(h' & a' & es' & E & R' & O' & _)]; rewrite E; eexists _, _; (split; [reflexivity|]).
    + exists es; auto.
    + exists es'; auto.
Qed.
Lemma do_calls_inv : forall ks h a, inv h a -> exists h' a', do_calls C u M h a ks = Some (h', a') /\ inv h' a'.
Proof.
  induction ks as [|k ks IH]; intros h a I; cbn [do_calls]; [eauto|].
  destruct (do_call_inv h a k I) as (h1 & a1 & E & I1). rewrite E. apply IH; auto.
Qed.

(** ** Arrays without holes *)
Lemma view_dense : forall h es xs, view u h es = map Some xs -> exists ps, es = map Some ps /\ map (fun p => nth p h u) ps = xs.
Proof.
  induction es as [|e es IH]; intros [|x xs] H; try discriminate; [exists []; auto|].
  cbn [view map] in H. injection H as H1 H2. destruct e as [p|]; [|discriminate]. cbn in H1. injection H1 as H1.
  destruct (IH xs H2) as (ps & -> & E). exists (p :: ps). cbn. split; auto. congruence.
Qed.
Lemma holds_len : forall h a xs, holds u h a xs -> cnt a = length xs.
Proof. intros h a xs (es & (k & _ & HC) & _ & V). rewrite HC. rewrite <- (view_len C u h es), V, map_length. auto. Qed.
Lemma view_prefix : forall h a b ps, view u h (a ++ b) = map Some ps -> view u h a = map Some (firstn (length a) ps) /\ view u h b = map Some (skipn (length a) ps).
Proof.
  intros h a b ps H. rewrite view_app in H.
  assert (L : length (view u h a) = length a) by apply view_len.
  rewrite <- L. split.
  - rewrite <- firstn_map, <- H. rewrite firstn_app, firstn_all, Nat.sub_diag, firstn_O, app_nil_r. auto.
  - rewrite <- skipn_map, <- H. rewrite skipn_app, skipn_all, Nat.sub_diag. auto.
Qed.
End Q.
