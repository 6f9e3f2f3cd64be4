(** * Options: what setting leaves alone *)
From Coq Require Import ZArith List Bool Lia SpecFloat.
Import ListNotations.
Require Import Verif.Bits Verif.StrModel Verif.NumModel Verif.OpsModel Verif.MiscModel Verif.OptModel Verif.OptSpec Verif.OptProofs.
Local Open Scope Z_scope.
Local Notation str := (list Z).

Scheme wf_min := Minimality for wf Sort Prop with wf_all_min := Minimality for wf_all Sort Prop.
Lemma wf_rec (P : spec -> Prop) :
  (forall h k, wf (Leaf h k) -> P (Leaf h k)) ->
  (forall h l, wf (Sub h l) -> Forall P l -> P (Sub h l)) ->
  (forall h n item, wf (Arr h n item) -> P item -> P (Arr h n item)) -> forall s, wf s -> P s.
Proof.
  intros H1 H2 H3. apply (wf_min P (Forall P)).
  - intros h k A B. apply H1. now constructor.
  - intros h l A B C D. apply H2; [now constructor|exact D].
  - intros h n item A B C D E F. apply H3; [now constructor|exact D].
  - constructor.
  - intros s l A B C D E F. now constructor.
Qed.
Lemma wf_all_in l s : wf_all l -> In s l -> wf s.
Proof. induction l as [|t l IH]; intros W H; [contradiction|]. inversion W; subst. destruct H as [->|H]; [assumption|now apply IH]. Qed.
Lemma wf_off s : wf s -> 0 <= off (hd_of s).
Proof. now inversion 1. Qed.
Lemma extent_in h l s : In s l -> off (hd_of s) + extent s <= extent (Sub h l).
Proof. cbn [extent]. induction l as [|t l IH]; intros H; [contradiction|]. destruct H as [->|H]; [lia|]. specialize (IH H). lia. Qed.
Lemma inside_child a h l s i : wf s -> In s l -> inside (a + off h) s i -> inside a (Sub h l) i.
Proof. intros W H. pose proof (extent_in h l s H). pose proof (wf_off s W). unfold inside. cbn [hd_of]. lia. Qed.

(** A value, with the parts of a value. *)
Section ValRec.
Context (P : val -> Prop).
Context (H1 : P VUndef) (H2 : P VNull) (H3 : forall b, P (VBool b)) (H4 : forall x, P (VNum x)) (H5 : forall s, P (VStr s)) (H6 : forall i, P (VFun i)) (H7 : forall i, P (VRe i)).
Context (H8 : forall l, Forall (fun o => match o with Some v => P v | None => True end) l -> P (VArr l)).
Context (H9 : forall l, Forall (fun kv => P (snd kv)) l -> P (VObj l)).
Fixpoint val_rec' (v : val) : P v.
Proof.
  destruct v as [| |b|x|s|l|l|i|i]; [exact H1|exact H2|exact (H3 b)|exact (H4 x)|exact (H5 s)| | |exact (H6 i)|exact (H7 i)].
  - apply H8. induction l as [|[v|] l IH]; constructor; try exact IH; [exact (val_rec' v)|exact Logic.I].
  - apply H9. induction l as [|[k v] l IH]; constructor; [exact (val_rec' v)|exact IH].
Qed.
End ValRec.

Definition left_by (r : res) (m' : mem) : Prop := r = Ok m' \/ r = Err m'.
(** Bytes with G are kept; only bytes with P may differ. *)
Definition keep (G : Z -> Prop) (m : mem) (r : res) : Prop := forall m', left_by r m' -> forall i, G i -> m' i = m i.
Definition only (P : Z -> Prop) (m : mem) (r : res) : Prop := keep (fun i => ~ P i) m r.
Lemma only_same P m : only P m (Ok m) /\ only P m (Err m) /\ only P m Undef.
Proof. split; [|split]; intros m' [H|H] i Hi; try discriminate; injection H as <-; reflexivity. Qed.
Lemma only_ok P m m1 : (forall i, ~ P i -> m1 i = m i) -> only P m (Ok m1).
Proof. intros H m' [E|E] i Hi; [injection E as <-; auto|discriminate]. Qed.
Lemma only_err P m m1 : (forall i, ~ P i -> m1 i = m i) -> only P m (Err m1).
Proof. intros H m' [E|E] i Hi; [discriminate|injection E as <-; auto]. Qed.
Lemma only_trans (P : Z -> Prop) m m1 r : (forall i, ~ P i -> m1 i = m i) -> only P m1 r -> only P m r.
Proof. intros H1 H2 m' L i Hi. rewrite (H2 m' L i Hi). auto. Qed.
Lemma only_weaken (P Q : Z -> Prop) m r : (forall i, P i -> Q i) -> only P m r -> only Q m r.
Proof. intros H1 H2 m' L i Hi. apply H2; auto. Qed.
Ltac only1 := first [apply only_ok | apply only_err]; intros; rewrite ?put_out, ?store_int_out, ?store_cell_out, ?put_list_out; try reflexivity.

Lemma good_size_nat n : good_size n = true -> Z.of_nat (Z.to_nat n) = n /\ 1 <= n <= 8 /\ In (Z.to_nat n) [1; 2; 4; 8]%nat.
Proof. unfold good_size. rewrite !orb_true_iff, !Z.eqb_eq. intros [[[->| ->]| ->]| ->]; cbn; repeat split; try lia; tauto. Qed.
Lemma set_bitset_only m a sz names nc v : good_size sz = true -> only (fun i => a <= i < a + sz) m (set_bitset m a sz names nc v).
Proof.
  intros G. destruct (good_size_nat sz G) as (S1 & S2 & _). unfold set_bitset. rewrite G. cbn [negb].
  assert (F : forall b, only (fun i => a <= i < a + sz) m (match b with BGo x => Ok (store_int m a (Z.to_nat sz) x) | BErr => Err m | BUndef => Undef end)).
  { intros [x| |]; [|apply only_same|apply only_same]. only1. lia. }
  destruct v as [[| | | |s|l|l| |]|]; try apply only_same.
  - destruct (match s with c :: r => if c =? 61 then (true, r) else (false, s) | [] => (false, []) end) as [ass s1]. destruct s1 as [|x s1]; [apply (F (BGo _))|].
    destruct (split_str (x :: s1) [44]) as [l| |]; [apply F|apply only_same|apply only_same].
  - apply F.
  - destruct (bits_obj names nc l _) as [x| |]; [|apply only_same|apply only_same]. only1. lia.
Qed.
Definition leaf_ok (h : head) (k : leaf) : Prop :=
  match k with LInt k _ => In k [1; 2; 4; 8]%nat | LStrbuf => 1 <= size h | LEnum _ _ _ _ | LBitset _ _ => good_size (size h) = true | _ => True end.
Lemma set_leaf_only junk m h k a v : leaf_ok h k -> only (fun i => a <= i < a + extent (Leaf h k)) m (set_leaf junk m a (size h) k v).
Proof.
  intros W. assert (SW : forall b, only (fun i => a <= i < a + 1) m (Ok (put m a (CByte b)))) by (intros b; only1; lia).
  destruct k as [|n sg| | |c|names nc ex un|names nc]; cbn [leaf_ok extent] in *.
  - destruct v as [[]|]; cbn [set_leaf]; try apply only_same; apply SW.
  - destruct v as [[]|]; cbn [set_leaf]; try apply only_same; [|only1; lia]. destruct (_ =? _); [only1; lia|apply only_same].
  - destruct v as [[]|]; cbn [set_leaf]; try apply only_same; [|only1; lia]. destruct (is_nan x); only1; lia.
  - destruct v as [[| | | |s| | | |]|]; cbn [set_leaf]; try apply only_same; try (only1; lia).
    destruct (Z.ltb_spec (size h - 1) (Z.of_nat (length s))); [apply only_same|]. only1. rewrite map_length, app_length. cbn. lia.
  - destruct v as [v|]; [|cbn [set_leaf]; only1; lia].
    destruct v; cbn [set_leaf]; try (only1; lia); destruct (class_ok _ _); try apply only_same; only1; lia.
  - destruct v as [[| | | |s| | | |]|]; cbn [set_leaf]; try apply only_same. destruct (get_index _ _ _ _); [|apply only_same].
    rewrite W. destruct (good_size_nat _ W) as (S1 & S2 & _). only1. lia.
  - cbn [set_leaf]. now apply set_bitset_only.
Qed.
Section Only.
Context (junk : Z) (c : cfg).
Lemma reset_only s : wf s -> forall m a, only (inside a s) m (reset junk m a s).
Proof.
  revert s. apply (wf_rec (fun s => forall m a, only (inside a s) m (reset junk m a s))).
  - intros h k W m a. cbn [reset]. unfold inside. cbn [hd_of]. apply set_leaf_only. now inversion W.
  - intros h l W IH m a.
    assert (G : forall l', incl l' l -> forall m, only (inside a (Sub h l)) m ((fix go (m : mem) (l : list spec) {struct l} : res :=
                match l with [] => Ok m | s :: r => match reset junk m (a + off h) s with Ok m1 => go m1 r | x => x end end) m l')).
    { induction l' as [|s r IHl]; intros I m0; [apply only_same|].
      assert (Ws : wf s) by (inversion W; subst; eapply wf_all_in; [eassumption|apply I; now left]).
      assert (O : only (inside a (Sub h l)) m0 (reset junk m0 (a + off h) s)).
      { eapply only_weaken; [|apply (proj1 (Forall_forall _ _) IH); apply I; now left]. intros i. apply inside_child; [exact Ws|apply I; now left]. }
      destruct (reset junk m0 (a + off h) s) as [m1|m1|] eqn:E; [|exact O|exact O].
      eapply only_trans; [|apply IHl; intros x X; apply I; now right]. intros i Hi. apply (O m1); [now left|exact Hi]. }
    specialize (G l (incl_refl l) m). destruct l as [|s0 l0]; [apply only_same|exact G].
  - intros h n item W IH m a. apply only_same.
Qed.
Lemma free_only s : wf s -> forall m a i, ~ inside a s i -> free m a s i = m i.
Proof.
  revert s. apply (wf_rec (fun s => forall m a i, ~ inside a s i -> free m a s i = m i)).
  - intros h k W m a i H. unfold inside in H. cbn [hd_of] in H. cbn [free]. destruct k; cbn [extent] in H; rewrite ?put_out, ?store_int_out, ?store_cell_out; try reflexivity; try lia.
    inversion W; subst. lia.
  - intros h l W IH m a i Hi. cbn [free].
    assert (G : forall l', incl l' l -> forall m, (fix go (m : mem) (l : list spec) {struct l} : mem := match l with [] => m | s :: r => go (free m (a + off h) s) r end) m l' i = m i).
    { induction l' as [|s r IHl]; intros I m0; [reflexivity|]. rewrite IHl by (intros x X; apply I; now right).
      assert (Ws : wf s) by (inversion W; subst; eapply wf_all_in; [eassumption|apply I; now left]).
      apply (proj1 (Forall_forall _ _) IH); [apply I; now left|]. intros X. apply Hi. eapply inside_child; [exact Ws|apply I; now left|exact X]. }
    apply G. apply incl_refl.
  - reflexivity.
Qed.
Lemma keep_same G m : keep G m (Ok m) /\ keep G m (Err m) /\ keep G m Undef.
Proof. split; [|split]; intros m' [H|H] i Hi; try discriminate; injection H as <-; reflexivity. Qed.
(** A loop over the members changes only the options that are found. *)
Lemma members_keep (G : Z -> Prop) set f a specs : forall l,
  Forall (fun kv => forall s m, find specs (fst kv) = Some s -> refused c f (hd_of s) = false -> keep G m (set (snd kv) f m a s)) l ->
  forall m seen, keep G m (members c set f a specs m l seen).
Proof.
  induction l as [|[k v] l IH]; intros H m seen; cbn [members]; [destruct (missing f specs seen); apply keep_same|]. inversion H as [|? ? H1 H2]; subst. cbn [fst snd] in H1.
  destruct (find specs k) as [s|] eqn:F; [|destruct (_ || _); [now apply IH|apply keep_same]].
  destruct (negb (eqb _ _)); [now apply IH|]. destruct (refused c f (hd_of s)) eqn:RF; [apply keep_same|]. specialize (H1 s m eq_refl RF).
  destruct (set v f m a s) as [m1|m1|]; [|exact H1|apply keep_same]. intros m' L i Hi. rewrite (IH H2 m1 _ m' L i Hi). apply (H1 m1); [now left|exact Hi].
Qed.
Lemma process_keep (G : Z -> Prop) set f a specs l : (update f = true \/ forall s i, In s specs -> G i -> ~ inside a s i) -> Forall wf specs ->
  Forall (fun kv => forall s m, find specs (fst kv) = Some s -> refused c f (hd_of s) = false -> keep G m (set (snd kv) f m a s)) l ->
  forall m, keep G m (process_with c set f m a specs l).
Proof.
  intros HU W H m. unfold process_with. destruct specs as [|s0 specs0]; [apply keep_same|]. remember (s0 :: specs0) as specs eqn:E. clear E.
  pose proof (members_keep G set f a specs l H m []) as M. destruct (members c set f a specs m l []) as [m1|m1|]; [exact M| |apply keep_same].
  intros m' [L|L] i Hi; [discriminate|]. injection L as <-. rewrite <- (M m1 (or_intror eq_refl) i Hi). destruct (update f) eqn:U; [reflexivity|]. destruct HU as [HU|HU]; [discriminate|].
  unfold free_all. clear H M m U. revert m1. induction W as [|s r Ws W IH]; intros m1; [reflexivity|]. cbn [fold_left]. rewrite IH.
  - apply free_only; [exact Ws|]. apply HU; [now left|exact Hi].
  - intros s' i' I. apply HU. now right.
Qed.
Lemma find_member specs k s : find specs k = Some s -> In s specs.
Proof.
  unfold find. assert (G : forall l acc, find_from acc l k = Some s -> acc = Some s \/ In s l).
  { induction l as [|t l IH]; intros acc H; [now left|]. cbn [find_from] in H. destruct (_ || _); [destruct (IH _ H); [now left|right; now right]|].
    destruct (same _ _ _); [injection H as <-; right; now left|]. destruct acc; [discriminate|]. destruct (IH _ H) as [X|X]; [injection X as <-; right; now left|right; now right]. }
  intros H. destruct (G _ _ H); [discriminate|assumption].
Qed.
Lemma elements_only (P : Z -> Prop) set item step : forall l,
  forall m a, (forall j : nat, (j < length l)%nat -> forall m' v, nth_error l j = Some v ->
    only P m' (match v with Some v => set v (mkFl false false false) m' (a + Z.of_nat j * step) item | None => reset junk m' (a + Z.of_nat j * step) item end)) ->
  only P m (elements junk set item step m a l).
Proof.
  induction l as [|v l IH]; intros m a H; cbn [elements]; [apply only_same|].
  pose proof (H 0%nat ltac:(cbn; lia) m v eq_refl) as H0. cbn [Z.of_nat] in H0. rewrite Z.mul_0_l, Z.add_0_r in H0.
  destruct (match v with Some v => set v (mkFl false false false) m a item | None => reset junk m a item end) as [m1|m1|]; [|exact H0|apply only_same].
  eapply only_trans; [intros i Hi; apply (H0 m1); [now left|exact Hi]|]. apply IH. intros j Hj m' v' Hv. specialize (H (S j) ltac:(cbn; lia) m' v' Hv).
  replace (a + Z.of_nat (S j) * step) with (a + step + Z.of_nat j * step) in H by lia. exact H.
Qed.
(** Setting an option changes bytes of this option only. *)
Theorem set_option_only : forall v f s m a, wf s -> only (inside a s) m (set_option junk c v f m a s).
Proof.
  assert (L : forall h k v m a, wf (Leaf h k) -> only (inside a (Leaf h k)) m (set_leaf junk m (a + off h) (size h) k v)).
  { intros h k w m a W. unfold inside. cbn [hd_of]. apply set_leaf_only. now inversion W. }
  assert (SUB : forall h l f m a v, wf (Sub h l) -> (forall ms, v <> VObj ms) -> only (inside a (Sub h l)) m (set_option junk c v f m a (Sub h l))).
  { intros h l f m a w W N. destruct w; cbn [set_option]; try apply only_same; [now apply reset_only|now destruct (N l0)]. }
  assert (ARR : forall h n item f m a v, (forall l, v <> VArr l) -> only (inside a (Arr h n item)) m (set_option junk c v f m a (Arr h n item))).
  { intros h n item f m a w N. destruct w; cbn [set_option]; destruct (_ || _); try apply only_same. now destruct (N l). }
  apply (val_rec' (fun v => forall f s m a, wf s -> only (inside a s) m (set_option junk c v f m a s)));
    try (intros; match goal with s : spec |- _ => destruct s as [h k|h l0|h n item]; [apply L; assumption|apply SUB; [assumption|discriminate]|apply ARR; discriminate] end).
  - intros l IH f [h k|h l0|h n item] m a W; [apply L; assumption|apply SUB; [assumption|discriminate]|]. cbn [set_option].
    destruct (Z.leb_spec n 0); cbn [orb]; [apply only_same|]. destruct (Z.leb_spec (size (hd_of item)) 0); [apply only_same|]. destruct (Z.eqb_spec (Z.of_nat (length l)) n) as [EL|]; [|apply only_same].
    inversion W as [| |? ? ? W1 W2 W3 W4 W5]; subst. apply elements_only. intros j Hj m' v Hv.
    eapply (only_weaken (inside (a + off h + Z.of_nat j * (size (hd_of item) / Z.of_nat (length l))) item)).
    + intros i. unfold inside. cbn [hd_of extent]. rewrite W4. set (st := size (hd_of item) / Z.of_nat (length l)) in *. assert (0 <= st) by (apply Z.div_pos; lia). nia.
    + destruct v as [v|]; [|now apply reset_only]. apply nth_error_In in Hv. apply (proj1 (Forall_forall _ _) IH _ Hv). exact W3.
  - intros l IH f [h k|h l0|h n item] m a W; [apply L; assumption| |apply ARR; discriminate]. cbn [set_option].
    inversion W as [|? ? W1 W2 W3|]; subst. apply process_keep.
    + right. intros s i I Hi X. apply Hi. revert X. apply inside_child; [eapply wf_all_in; eassumption|exact I].
    + apply Forall_forall. intros s I. eapply wf_all_in; eassumption.
    + apply Forall_forall. intros [k v] I s m' F RF. cbn [fst snd]. apply find_member in F. eapply only_weaken; [intros i; apply inside_child; [eapply wf_all_in; eassumption|exact F]|].
      apply (proj1 (Forall_forall _ _) IH _ I). eapply wf_all_in; eassumption.
Qed.
End Only.
