(** The proofs about bracket expressions. *)
From Coq Require Import ZArith List Bool Lia.
From Verif Require Import NfaModel NfaSpec PatModel PatSpec.
Import ListNotations.
Open Scope Z_scope.

Ltac b2p := repeat match goal with
  | H : (_ =? _) = true |- _ => apply Z.eqb_eq in H
  | H : (_ =? _) = false |- _ => apply Z.eqb_neq in H
  | H : (_ <? _) = true |- _ => apply Z.ltb_lt in H
  | H : (_ <? _) = false |- _ => apply Z.ltb_ge in H
  | H : (_ <=? _) = true |- _ => apply Z.leb_le in H
  | H : (_ <=? _) = false |- _ => apply Z.leb_gt in H
  end.

Definition within_item (x : Z) (it : item) : Prop := i_lo it <= x <= i_hi it.
Definition bare (it : item) : Prop := i_cls it = 0 /\ i_neg it = [].

Lemma run_spec f : forall n c e c' e' m, icase_run f c e n = (c', e', m) ->
  exists k, n = (k + m)%nat /\ c' = c + Z.of_nat k /\ e' = e + Z.of_nat k /\ forall i, 0 <= i < Z.of_nat k -> f (c + i) = e + i.
Proof.
  induction n as [|n IH]; intros c e c' e' m H; cbn [icase_run] in H.
  - injection H as <- <- <-. exists O. repeat split; try lia.
  - destruct (f c =? e) eqn:F.
    + b2p. apply IH in H as (k & -> & -> & -> & K). exists (S k). repeat split; try lia. intros i I.
      destruct (Z.eq_dec i 0) as [->|N]; [now rewrite !Z.add_0_r|].
      replace (c + i) with (c + 1 + (i - 1)) by lia. rewrite K by lia. lia.
    + injection H as <- <- <-. exists O. repeat split; try lia.
Qed.

Lemma new_lit_some ls x : Z.of_nat (length ls) < 32768 -> new_lit ls x = Some (ls ++ [x]).
Proof. intros H. unfold new_lit. apply Z.ltb_lt in H. now rewrite H. Qed.

Definition folds (L : loc) (y x : Z) : Prop := (lower L y = true /\ x = upc (l_env L) y) \/ (upper L y = true /\ x = lowc (l_env L) y).

Lemma run_lower L c k : sane L -> lower L c = true ->
  (forall i, 0 <= i < Z.of_nat k -> upc (l_env L) (c + 1 + i) = upc (l_env L) c + 1 + i) ->
  forall y, c <= y < c + 1 + Z.of_nat k -> lower L y = true /\ upper L y = false /\ upc (l_env L) y = upc (l_env L) c + (y - c).
Proof.
  intros S L1 K y R. assert (X : upc (l_env L) y = upc (l_env L) c + (y - c)).
  { destruct (Z.eq_dec y c) as [->|N]; [lia|]. replace y with (c + 1 + (y - c - 1)) by lia. rewrite K by lia. lia. }
  destruct (S c) as (_ & A & _). apply A in L1. destruct (S y) as (B & A' & _).
  assert (lower L y = true) by (apply A'; lia). auto.
Qed.
Lemma run_upper L c k : sane L -> upper L c = true ->
  (forall i, 0 <= i < Z.of_nat k -> lowc (l_env L) (c + 1 + i) = lowc (l_env L) c + 1 + i) ->
  forall y, c <= y < c + 1 + Z.of_nat k -> upper L y = true /\ lower L y = false /\ lowc (l_env L) y = lowc (l_env L) c + (y - c).
Proof.
  intros S L1 K y R. assert (X : lowc (l_env L) y = lowc (l_env L) c + (y - c)).
  { destruct (Z.eq_dec y c) as [->|N]; [lia|]. replace y with (c + 1 + (y - c - 1)) by lia. rewrite K by lia. lia. }
  destruct (S c) as (_ & _ & A & _). apply A in L1. destruct (S y) as (B & _ & A' & _).
  assert (U : upper L y = true) by (apply A'; lia). split; [auto|]. split; [|exact X].
  destruct (lower L y) eqn:Q; [|reflexivity]. rewrite B in U by reflexivity. discriminate.
Qed.

Lemma add_icase_spec L : sane L -> forall fuel ls c n, (n <= fuel)%nat -> Z.of_nat (length ls) + Z.of_nat n <= 32768 ->
  exists add, add_icase L fuel ls c n = Some (ls ++ add) /\ (length add <= n)%nat /\ Forall bare add
    /\ (0 < c -> Forall (fun it => 0 < i_lo it <= i_hi it) add)
    /\ (forall x, Exists (within_item x) add <-> exists y, c <= y < c + Z.of_nat n /\ folds L y x).
Proof.
  intros S. induction fuel as [|fuel IH]; intros ls c n Hf Hl.
  { assert (n = O) by lia. subst n. exists []. cbn. rewrite app_nil_r. repeat split; auto.
    - intros H. inversion H.
    - intros (y & ? & _). lia. }
  destruct n as [|n].
  { exists []. cbn. rewrite app_nil_r. repeat split; auto.
    - intros H. inversion H.
    - intros (y & ? & _). lia. }
  cbn [add_icase]. destruct (lower L c) eqn:LC.
  - destruct (icase_run (upc (l_env L)) (c + 1) (upc (l_env L) c + 1) n) as [[c' e] m] eqn:R.
    apply run_spec in R as (k & -> & -> & -> & K). pose proof (run_lower L c k S LC K) as Y. clear K.
    rewrite new_lit_some by lia.
    destruct (IH (ls ++ [plain_item (upc (l_env L) c) (upc (l_env L) c + 1 + Z.of_nat k - 1) 0]) (c + 1 + Z.of_nat k) m) as (add & E & La & Ba & Pa & Xa); [lia|rewrite app_length; cbn [length]; lia|].
    rewrite E, <- app_assoc. eexists. split; [reflexivity|]. cbn [app length]. split; [lia|].
    split; [constructor; [split; reflexivity|exact Ba]|].
    split; [intros P; constructor; [cbn; destruct (S c) as (_ & _ & _ & Q); specialize (Q P); lia|apply Pa; lia]|].
    intros x. rewrite Exists_cons, Xa. unfold within_item at 1. cbn [plain_item i_lo i_hi]. split.
    + intros [H|(y & H & F)]; [|exists y; split; [lia|exact F]].
      exists (c + (x - upc (l_env L) c)). split; [lia|]. destruct (Y (c + (x - upc (l_env L) c)) ltac:(lia)) as (A & B & C). left. split; [exact A|lia].
    + intros (y & H & F). destruct (Z_lt_le_dec y (c + 1 + Z.of_nat k)) as [Q|Q]; [|right; exists y; split; [lia|exact F]].
      left. destruct (Y y ltac:(lia)) as (A & B & C). destruct F as [[_ ->]|[F _]]; [lia|congruence].
  - destruct (upper L c) eqn:UC.
    + destruct (icase_run (lowc (l_env L)) (c + 1) (lowc (l_env L) c + 1) n) as [[c' e] m] eqn:R.
      apply run_spec in R as (k & -> & -> & -> & K). pose proof (run_upper L c k S UC K) as Y. clear K.
      rewrite new_lit_some by lia.
      destruct (IH (ls ++ [plain_item (lowc (l_env L) c) (lowc (l_env L) c + 1 + Z.of_nat k - 1) 0]) (c + 1 + Z.of_nat k) m) as (add & E & La & Ba & Pa & Xa); [lia|rewrite app_length; cbn [length]; lia|].
      rewrite E, <- app_assoc. eexists. split; [reflexivity|]. cbn [app length]. split; [lia|].
      split; [constructor; [split; reflexivity|exact Ba]|].
      split; [intros P; constructor; [cbn; destruct (S c) as (_ & _ & _ & Q); specialize (Q P); lia|apply Pa; lia]|].
      intros x. rewrite Exists_cons, Xa. unfold within_item at 1. cbn [plain_item i_lo i_hi]. split.
      * intros [H|(y & H & F)]; [|exists y; split; [lia|exact F]].
        exists (c + (x - lowc (l_env L) c)). split; [lia|]. destruct (Y (c + (x - lowc (l_env L) c)) ltac:(lia)) as (A & B & C). right. split; [exact A|lia].
      * intros (y & H & F). destruct (Z_lt_le_dec y (c + 1 + Z.of_nat k)) as [Q|Q]; [|right; exists y; split; [lia|exact F]].
        left. destruct (Y y ltac:(lia)) as (A & B & C). destruct F as [[F _]|[_ ->]]; [congruence|lia].
    + destruct (IH ls (c + 1) n) as (add & E & La & Ba & Pa & Xa); [lia|lia|].
      exists add. split; [exact E|]. split; [lia|]. split; [exact Ba|]. split; [intros P; apply Pa; lia|].
      intros x. rewrite Xa. split; intros (y & H & F); exists y; (split; [|exact F]); [lia|].
      destruct (Z.eq_dec y c) as [->|N]; [|lia]. exfalso. destruct F as [[F _]|[F _]]; congruence.
Qed.

(** ** Reading the terms *)

Definition t_lo (t : bterm) : Z := match t with TChar c => c | TRange a _ => a | TClass _ => 0 end.
Definition t_hi (t : bterm) : Z := match t with TChar c => c | TRange _ b => b | TClass _ => char_max end.
Definition t_cls (L : loc) (t : bterm) : Z := match t with TClass nm => wctype L nm | _ => 0 end.

Lemma class_name_spec : forall nm n r, ~ In 58 nm -> (length nm < n)%nat -> class_name n (nm ++ 58 :: r) = Some (nm, r).
Proof.
  induction nm as [|c nm IH]; intros n r N Ln; (destruct n as [|n]; [cbn in Ln; lia|]); cbn [app class_name].
  - reflexivity.
  - destruct (c =? 58) eqn:E; [b2p; subst; exfalso; apply N; now left|]. rewrite IH; [reflexivity| |cbn in Ln; lia]. intros H. apply N. now right.
Qed.

Lemma hd_app (l l' : list Z) d : l <> [] -> hd d (l ++ l') = hd d l.
Proof. destruct l; [congruence|reflexivity]. Qed.

Lemma term_ok L fst t ts rest : wf_terms L fst (t :: ts) ->
  term L (pr_term t ++ pr_terms ts ++ 93 :: rest) = Ok (t_lo t, t_hi t, t_cls L t, pr_terms ts ++ 93 :: rest).
Proof.
  intros [W _]. destruct t as [c|a b|nm]; cbn [pr_term app].
  - destruct W as (I & _ & _ & Wo & Wd). unfold term. unfold head, second.
    replace (hd 0 (pr_terms ts ++ 93 :: rest)) with (hd 0 (pr_terms ts ++ [93])) by (destruct (pr_terms ts); reflexivity).
    replace ((c =? 91) && (hd 0 (pr_terms ts ++ [93]) =? 58)) with false by (destruct (c =? 91) eqn:E; [b2p; symmetry; apply Z.eqb_neq; now apply Wo|reflexivity]).
    replace ((hd 0 (pr_terms ts ++ [93]) =? 45) && negb (hd 0 (tl (pr_terms ts ++ 93 :: rest)) =? 93)) with false; [reflexivity|].
    destruct (hd 0 (pr_terms ts ++ [93]) =? 45) eqn:E; [|reflexivity]. b2p. rewrite (Wd E). reflexivity.
  - destruct W as (I1 & I2 & _ & _ & Le & N). unfold term, head, second. cbn [hd tl].
    replace ((a =? 91) && (45 =? 58)) with false by (destruct (a =? 91); reflexivity).
    apply Z.eqb_neq in N. rewrite N. cbn [negb andb Z.eqb]. destruct (b <? a) eqn:E; [b2p; lia|]. reflexivity.
  - destruct W as (N & Ln & C). unfold term. unfold head at 1. cbn [hd tl Z.eqb andb].
    rewrite <- app_assoc. cbn [app]. rewrite class_name_spec by (auto; lia). apply Z.eqb_neq in C. rewrite C. reflexivity.
Qed.

Lemma pr_term_ne t : pr_term t <> [].
Proof. destruct t; discriminate. Qed.

Lemma weight_nonneg L fst ts : wf_terms L fst ts -> Forall (fun t => 1 <= weight L t) ts.
Proof.
  revert fst. induction ts as [|t ts IH]; intros fst W; constructor.
  - destruct W as [W _]. destruct t as [c|a b|nm]; cbn; [lia| |lia]. destruct W as (_ & _ & _ & _ & Le & _). destruct (icase _); lia.
  - destruct W as [_ W]. eauto.
Qed.
Lemma sum_nonneg l : Forall (fun z => 1 <= z) l -> 0 <= sum l.
Proof. induction 1; cbn; [lia|]. unfold sum in *. lia. Qed.

(** The items that one term adds. *)
Lemma in_item_bare E it x : bare it -> (in_item E it x <-> within_item x it).
Proof. intros [A B]. unfold in_item, within_item. rewrite A, B. cbn. intuition congruence. Qed.
Lemma exists_bare E l x : Forall bare l -> (Exists (fun it => in_item E it x) l <-> Exists (within_item x) l).
Proof. induction 1 as [|it l B _ IH]; [split; intros H; inversion H|]. rewrite !Exists_cons, IH, (in_item_bare E it x B). tauto. Qed.

Definition listed (L : loc) (neg : bool) (x : Z) (t : bterm) : Prop := (neg = true -> is_class t = false) /\ in_term L x t.

Lemma folds_alike L c x : (x = c \/ (icase (l_env L) = true /\ folds L c x)) <-> alike L c x.
Proof. unfold alike, folds. tauto. Qed.

Lemma terms_ok L neg rest : sane L -> forall ts fst fuel ls nc,
  wf_terms L fst ts -> (length (pr_terms ts) < fuel)%nat ->
  Z.of_nat (length ls) + sum (map (weight L) ts) <= 32767 -> (length nc + length (filter is_class ts) <= 64)%nat ->
  exists add, terms L fuel neg fst (pr_terms ts ++ 93 :: rest) ls nc
    = Ok (ls ++ add, nc ++ (if neg then map (t_cls L) (filter is_class ts) else []), rest)
    /\ Z.of_nat (length add) <= sum (map (weight L) ts)
    /\ Forall (fun it => i_neg it = []) add
    /\ (neg = true \/ filter is_class ts = [] -> Forall bare add)
    /\ (neg = true -> Forall (fun it => 0 < i_lo it <= i_hi it) add)
    /\ (forall x, 0 < x <= char_max -> (Exists (fun it => in_item (l_env L) it x) add <-> Exists (listed L neg x) ts))
    /\ (neg = false -> ts <> [] -> add <> []).
Proof.
  intros S. induction ts as [|t ts IH]; intros fst fuel ls nc W Hf Hs Hn; (destruct fuel as [|fuel]; [lia|]).
  { cbn in W. subst fst. exists []. cbn. rewrite app_nil_r. replace (nc ++ (if neg then [] else [])) with nc by (destruct neg; now rewrite app_nil_r).
    repeat split; auto; try lia; intros H'; inversion H'. }
  pose proof (weight_nonneg _ _ _ W) as Wn. pose proof (term_ok L fst t ts rest W) as T.
  assert (W0 := W). destruct W0 as [Wt Wts]. inversion Wn as [|? ? W1 Wn' EQ]; subst.
  assert (Sn : 0 <= sum (map (weight L) ts)) by (apply sum_nonneg, Forall_map, Wn').
  change (sum (map (weight L) (t :: ts))) with (weight L t + sum (map (weight L) ts)) in *.
  cbn [pr_terms flat_map] in Hf |- *. fold (pr_terms ts) in *. rewrite <- app_assoc.
  assert (Hf' : (length (pr_terms ts) < fuel)%nat) by (rewrite app_length in Hf; pose proof (pr_term_ne t); destruct (pr_term t); cbn in *; [congruence|lia]).
  remember (pr_term t ++ pr_terms ts ++ 93 :: rest) as s eqn:Es.
  destruct s as [|c r]; [destruct (pr_term t); [|discriminate]; cbn in Es; destruct (pr_terms ts); discriminate|].
  cbn [terms].
  assert (Ec := f_equal (hd 0) Es). assert (Er := f_equal (@tl Z) Es). cbn [hd tl] in Ec, Er.
  assert (G1 : (c =? 93) && negb fst = false).
  { destruct (c =? 93) eqn:E; [|reflexivity]. b2p. destruct t as [c0|a b|nm]; cbn [pr_term app hd] in Ec; [| |congruence].
    - destruct Wt as (_ & A & _). rewrite A by congruence. reflexivity.
    - destruct Wt as (_ & _ & A & _). rewrite A by congruence. reflexivity. }
  assert (G2 : (c =? 45) && negb fst && negb (head r =? 93) && (negb (head r =? 45) || (second r =? 93)) = false).
  { destruct (c =? 45) eqn:E; [|reflexivity]. b2p. destruct t as [c0|a b|nm]; cbn [pr_term app hd tl] in Ec, Er; [| |congruence].
    - destruct Wt as (_ & _ & A & _). destruct (A ltac:(congruence)) as [->|A2]; [reflexivity|]. subst ts. subst r. cbn. destruct fst; reflexivity.
    - destruct Wt as (_ & _ & _ & A & _). rewrite A by congruence. reflexivity. }
  assert (G3 : (c =? 91) && ((head r =? 46) || (head r =? 61)) = false).
  { destruct (c =? 91) eqn:E; [|reflexivity]. b2p. destruct t as [c0|a b|nm]; cbn [pr_term app hd tl] in Ec, Er; subst r; try reflexivity.
    destruct Wt as (_ & _ & _ & A & _). destruct (A ltac:(congruence)) as (A1 & A2 & A3).
    unfold head. replace (hd 0 (pr_terms ts ++ 93 :: rest)) with (hd 0 (pr_terms ts ++ [93])) by (destruct (pr_terms ts); reflexivity).
    apply Z.eqb_neq in A1, A2. rewrite A1, A2. reflexivity. }
  rewrite G1, G2, G3, T. clear G1 G2 G3 T Es Ec Er.
  assert (PO : is_class t = false -> 0 < t_lo t <= t_hi t /\ t_hi t <= char_max).
  { destruct t as [c0|a b|nm]; [intros _; destruct Wt as (A & _); unfold is_char in A; cbn; lia| |discriminate].
    intros _. destruct Wt as (A & B & _ & _ & C & _). unfold is_char in *. cbn. lia. }
  assert (CL : t_cls L t = 0 <-> is_class t = false).
  { destruct t; cbn; try tauto. destruct Wt as (_ & _ & C). split; [tauto|discriminate]. }
  destruct (is_class t) eqn:IC.
  - (* a class *)
    assert (C0 : (t_cls L t =? 0) = false) by (apply Z.eqb_neq; intros Q; apply CL in Q; discriminate). rewrite C0. cbn [negb andb].
    cbn [filter] in Hn. rewrite IC in Hn. cbn [length] in Hn.
    destruct neg; cbn [negb andb].
    + replace (64 <=? Z.of_nat (length nc)) with false by (symmetry; apply Z.leb_gt; lia).
      destruct (IH false fuel ls (nc ++ [t_cls L t]) Wts Hf') as (add & E & Ln & Fn & Fb & Fl & Fx & Fe); [lia|rewrite app_length; cbn; lia|].
      exists add. rewrite E. cbn [filter]. rewrite IC. cbn [map]. rewrite <- app_assoc. cbn [app]. split; [reflexivity|].
      split; [lia|]. split; [exact Fn|]. split; [auto|]. split; [exact Fl|]. split; [|discriminate].
      intros x X. rewrite Exists_cons, (Fx x X). split; [now right|]. intros [[Q _]|Q]; [rewrite IC in Q; specialize (Q eq_refl); discriminate|exact Q].
    + rewrite new_lit_some by lia. replace (icase (l_env L) && false) with false by (destruct (icase _); reflexivity).
      destruct (IH false fuel (ls ++ [plain_item (t_lo t) (t_hi t) (t_cls L t)]) nc Wts Hf') as (add & E & Ln & Fn & Fb & Fl & Fx & Fe); [rewrite app_length; cbn; lia|lia|].
      exists (plain_item (t_lo t) (t_hi t) (t_cls L t) :: add). rewrite E, <- app_assoc. split; [reflexivity|].
      split; [cbn [length]; lia|]. split; [constructor; [reflexivity|exact Fn]|].
      split; [cbn [filter]; rewrite IC; intros [Q|Q]; discriminate|]. split; [discriminate|]. split; [|discriminate].
      intros x X. rewrite !Exists_cons, (Fx x X). apply or_iff_compat_r. unfold listed. destruct t; try discriminate. cbn [in_term].
      unfold in_item. cbn [plain_item i_lo i_hi i_cls i_neg t_lo t_hi t_cls In] in *. b2p. intuition.
  - (* characters *)
    assert (C0 : t_cls L t = 0) by (apply CL; reflexivity). rewrite C0. cbn [Z.eqb negb andb]. rewrite andb_true_r.
    cbn [filter] in Hn |- *. rewrite IC in Hn |- *. destruct (PO eq_refl) as (P1 & P2).
    rewrite new_lit_some by lia. destruct (icase (l_env L)) eqn:IG.
    + assert (SZ : Z.of_nat (Z.to_nat (t_hi t - t_lo t + 1)) + 1 <= weight L t) by (clear - P1 IG IC; destruct t; [|cbn [weight]; rewrite IG|discriminate IC]; cbn [weight t_lo t_hi] in *; lia).
      destruct (add_icase_spec L S (Z.to_nat (t_hi t - t_lo t + 1)) (ls ++ [plain_item (t_lo t) (t_hi t) 0]) (t_lo t) (Z.to_nat (t_hi t - t_lo t + 1))) as (ad & E1 & L1 & B1 & Q1 & X1);
        [lia|rewrite app_length; cbn [length]; lia|]. rewrite E1.
      destruct (IH false fuel ((ls ++ [plain_item (t_lo t) (t_hi t) 0]) ++ ad) nc Wts Hf') as (add & E & Ln & Fn & Fb & Fl & Fx & Fe); [rewrite !app_length; cbn [length]; lia|lia|].
      exists (plain_item (t_lo t) (t_hi t) 0 :: ad ++ add). rewrite E, <- !app_assoc. split; [reflexivity|].
      split; [cbn [length]; rewrite app_length; lia|].
      split; [constructor; [reflexivity|]; apply Forall_app; split; [|exact Fn]; eapply Forall_impl; [|exact B1]; intros ? [? ?]; assumption|].
      split; [intros Q; constructor; [split; reflexivity|]; apply Forall_app; auto|].
      split; [intros Q; constructor; [cbn; lia|]; apply Forall_app; split; [apply Q1; lia|auto]|]. split; [|discriminate].
      intros x X. rewrite !Exists_cons, Exists_app, (exists_bare _ _ _ B1), X1, (Fx x X), in_item_bare by (split; reflexivity).
      rewrite <- or_assoc. apply or_iff_compat_r. unfold listed, within_item. cbn [plain_item i_lo i_hi].
      rewrite Z2Nat.id by lia. split.
      * intros H. split; [auto|]. destruct t as [c0|a b|]; [| |discriminate]; cbn [in_term t_lo t_hi] in *.
        -- apply folds_alike. destruct H as [H|(y & H & F)]; [left; lia|right]. split; [exact IG|]. replace c0 with y by lia. exact F.
        -- destruct H as [H|(y & H & F)]; [exists x; split; [lia|now left]|]. exists y. split; [lia|]. apply folds_alike. right. auto.
      * intros [_ H]. destruct t as [c0|a b|]; [| |discriminate]; cbn [in_term t_lo t_hi] in *.
        -- apply folds_alike in H as [->|[_ F]]; [left; lia|right]. exists c0. split; [lia|exact F].
        -- destruct H as (y & H & F). apply folds_alike in F as [->|[_ F]]; [left; lia|right]. exists y. split; [lia|exact F].
    + destruct (IH false fuel (ls ++ [plain_item (t_lo t) (t_hi t) 0]) nc Wts Hf') as (add & E & Ln & Fn & Fb & Fl & Fx & Fe); [rewrite !app_length; cbn [length]; lia|lia|].
      exists (plain_item (t_lo t) (t_hi t) 0 :: add). cbn [andb]. rewrite E, <- !app_assoc. split; [reflexivity|].
      split; [cbn [length]; lia|]. split; [constructor; [reflexivity|exact Fn]|].
      split; [intros Q; constructor; [split; reflexivity|auto]|].
      split; [intros Q; constructor; [cbn; lia|auto]|]. split; [|discriminate].
      intros x X. rewrite !Exists_cons, (Fx x X), in_item_bare by (split; reflexivity). apply or_iff_compat_r.
      unfold listed, within_item. cbn [plain_item i_lo i_hi]. split.
      * intros H. split; [auto|]. destruct t as [c0|a b|]; [| |discriminate]; cbn [in_term t_lo t_hi] in *.
        -- left. lia.
        -- exists x. split; [lia|now left].
      * intros [_ H]. destruct t as [c0|a b|]; [| |discriminate]; cbn [in_term t_lo t_hi] in *.
        -- destruct H as [->|[Q _]]; [lia|congruence].
        -- destruct H as (y & H & [->|[Q _]]); [lia|congruence].
Qed.

(** ** Negation *)

Lemma in_insert x it l : In x (insert it l) <-> x = it \/ In x l.
Proof. induction l as [|y l IH]; cbn [insert]; [cbn; intuition congruence|]. destruct (_ <=? _); cbn [In]; [intuition congruence|]. rewrite IH. intuition congruence. Qed.
Lemma in_sort x l : In x (sort l) <-> In x l.
Proof. induction l as [|y l IH]; cbn [sort]; [tauto|]. rewrite in_insert, IH. cbn. intuition congruence. Qed.
Lemma insert_length it l : length (insert it l) = S (length l).
Proof. induction l as [|y l IH]; cbn [insert]; [reflexivity|]. destruct (_ <=? _); cbn [length]; lia. Qed.
Lemma sort_length l : length (sort l) = length l.
Proof. induction l as [|y l IH]; cbn [sort]; [reflexivity|]. rewrite insert_length. cbn. lia. Qed.

Inductive sorted : list item -> Prop :=
| sorted_nil : sorted []
| sorted_cons x l : (forall y, In y l -> i_lo x <= i_lo y) -> sorted l -> sorted (x :: l).

Lemma insert_sorted it l : sorted l -> sorted (insert it l).
Proof.
  induction 1 as [|x l H Hs IH]; cbn [insert]; [constructor; [intros ? []|constructor]|].
  destruct (i_lo it <=? i_lo x) eqn:E; b2p.
  - constructor; [|constructor; assumption]. intros y [<-|Y]; [lia|]. specialize (H y Y). lia.
  - constructor; [|exact IH]. intros y Y. apply in_insert in Y as [->|Y]; [lia|auto].
Qed.
Lemma sort_sorted l : sorted (sort l).
Proof. induction l; cbn [sort]; [constructor|now apply insert_sorted]. Qed.

Lemma gaps_low nc x : forall k m, Forall (fun it => i_lo it <= i_hi it) k -> x < m -> ~ Exists (within_item x) (gaps nc k m).
Proof.
  induction k as [|y k IH]; intros m F M Q; cbn [gaps] in Q; [inversion Q|]. inversion F; subst.
  destruct (i_lo y <=? m) eqn:E'; b2p; [eapply IH; [eassumption| |exact Q]; lia|]. apply Exists_cons in Q as [Q|Q].
  - unfold within_item in Q. cbn in Q. lia.
  - eapply IH; [eassumption| |exact Q]. lia.
Qed.

Lemma gaps_spec nc : forall ls m x, sorted ls -> Forall (fun it => i_lo it <= i_hi it) ls -> m <= x -> x <= char_max ->
  (Exists (within_item x) (gaps nc (ls ++ [plain_item (char_max + 1) (char_max + 1) 0]) m) <-> ~ Exists (within_item x) ls).
Proof.
  induction ls as [|l ls IH]; intros m x Hs F Hm Hx; cbn [app gaps].
  - cbn [plain_item i_lo i_hi]. destruct (char_max + 1 <=? m) eqn:E; b2p; [lia|].
    split; [intros _ Q; inversion Q|]. intros _. left. unfold within_item. cbn [i_lo i_hi]. lia.
  - inversion Hs as [|? ? H1 H2]; subst. inversion F as [|? ? F1 F2]; subst.
    assert (FE : Forall (fun it => i_lo it <= i_hi it) (ls ++ [plain_item (char_max + 1) (char_max + 1) 0])) by (apply Forall_app; split; [exact F2|constructor; [cbn; lia|constructor]]).
    destruct (i_lo l <=? m) eqn:E; b2p.
    + rewrite Exists_cons. destruct (Z_lt_le_dec (i_hi l) x) as [Q|Q].
      * rewrite IH by (auto; lia). unfold within_item at 2. intuition lia.
      * split; [|intros N; exfalso; apply N; left; unfold within_item; lia].
        intros X. exfalso. revert X. apply gaps_low; [exact FE|lia].
    + rewrite !Exists_cons. unfold within_item at 1 3. cbn [i_lo i_hi].
      destruct (Z_lt_le_dec x (i_lo l)) as [Q|Q].
      * split; [|intros _; left; lia]. intros _ [N|N]; [lia|]. apply Exists_exists in N as (y & Y & N). specialize (H1 y Y). unfold within_item in N. lia.
      * destruct (Z_lt_le_dec (i_hi l) x) as [Q2|Q2].
        -- rewrite IH by (auto; lia). intuition lia.
        -- split; [|intros N; exfalso; apply N; left; lia].
           intros [N|N]; [lia|]. exfalso. revert N. apply gaps_low; [exact FE|lia].
Qed.

Lemma gaps_form nc : forall ls m it, Forall bare ls -> In it (gaps nc ls m) -> i_cls it = 0 /\ i_neg it = nc.
Proof.
  induction ls as [|l ls IH]; intros m it F I; cbn [gaps] in I; [destruct I|]. inversion F as [|? ? [B _] F']; subst.
  destruct (i_lo l <=? m); [eauto|]. destruct I as [<-|I]; [cbn; auto|eauto].
Qed.

(** ** The whole bracket *)

Lemma in_gap E nc it x : i_cls it = 0 -> i_neg it = nc -> (in_item E it x <-> within_item x it /\ forall k, In k nc -> ~ in_class E k x).
Proof. intros A B. unfold in_item, within_item. rewrite A, B. intuition congruence. Qed.

Theorem bracket_ok L neg ts rest : sane L -> wf_set L neg ts ->
  exists s ss, bracket L (pr_set neg ts ++ rest) = Ok (PSet s ss, rest)
    /\ (filter is_class ts = [] -> forall it, In it (s :: ss) -> i_cls it = 0 /\ i_neg it = [])
    /\ forall x, is_char x -> ((exists it, In it (s :: ss) /\ in_item (l_env L) it x) <-> in_set L neg ts x).
Proof.
  intros S (W & Hd & Sz & Cl). unfold bracket.
  assert (TS : ts <> []) by (intros ->; discriminate W).
  assert (NE : pr_terms ts <> []) by (destruct ts as [|t r]; [congruence|cbn; pose proof (pr_term_ne t); destruct (pr_term t); [congruence|discriminate]]).
  assert (A : (head (pr_set neg ts ++ rest) =? 94) = neg).
  { unfold head, pr_set. destruct neg; [reflexivity|]. cbn [app]. rewrite <- app_assoc, hd_app by exact NE. apply Z.eqb_neq, Hd. reflexivity. }
  rewrite A. clear A.
  assert (B : (if neg then tl (pr_set neg ts ++ rest) else pr_set neg ts ++ rest) = pr_terms ts ++ 93 :: rest).
  { unfold pr_set. destruct neg; cbn [app tl]; now rewrite <- app_assoc. }
  rewrite B. clear B.
  destruct (terms_ok L neg rest S ts true (Datatypes.S (length (pr_terms ts ++ 93 :: rest))) [] [] W) as (add & E & Ln & Fn & Fb & Fl & Fx & Fe);
    [rewrite app_length; lia|exact Sz|exact Cl|]. rewrite E. cbn [app]. clear E. destruct neg.
  - rewrite new_lit_some by (rewrite sort_length; lia).
    set (nc := map (t_cls L) (filter is_class ts)) in *.
    assert (BA : Forall bare add) by auto. assert (LA := Fl eq_refl).
    assert (BS : Forall bare (sort add ++ [plain_item (char_max + 1) (char_max + 1) 0])).
    { apply Forall_app. split; [|constructor; [split; reflexivity|constructor]]. apply Forall_forall. intros y Y. apply (proj1 (in_sort y add)) in Y. rewrite Forall_forall in BA. auto. }
    assert (LS : Forall (fun it => i_lo it <= i_hi it) (sort add)).
    { apply Forall_forall. intros y Y. apply (proj1 (in_sort y add)) in Y. rewrite Forall_forall in LA. specialize (LA y Y). cbn beta in LA. lia. }
    assert (G : forall x, 0 <= x <= char_max -> (Exists (within_item x) (gaps nc (sort add ++ [plain_item (char_max + 1) (char_max + 1) 0]) 0) <-> ~ Exists (within_item x) add)).
    { intros x X. rewrite (gaps_spec nc (sort add) 0 x (sort_sorted add) LS) by lia.
      rewrite !Exists_exists. split; intros N (y & Y & I); apply N; exists y; (split; [apply in_sort|]; assumption). }
    destruct (gaps nc _ 0) as [|s ss] eqn:EG.
    { exfalso. assert (Q : Exists (within_item 0) []). { apply (G 0 ltac:(unfold char_max; lia)). intros Q. apply Exists_exists in Q as (y & Y & I). rewrite Forall_forall in LA. specialize (LA y Y). unfold within_item in I. cbn beta in LA. lia. } inversion Q. }
    exists s, ss. split; [reflexivity|].
    assert (GF : forall it, In it (s :: ss) -> i_cls it = 0 /\ i_neg it = nc) by (intros it I; rewrite <- EG in I; exact (gaps_form nc _ _ it BS I)).
    split.
    { intros Q it I. destruct (GF it I) as [A1 A2]. split; [exact A1|]. rewrite A2. unfold nc. now rewrite Q. }
    intros x X. unfold is_char in X.
    assert (P : (exists it, In it (s :: ss) /\ in_item (l_env L) it x) <-> Exists (within_item x) (s :: ss) /\ forall k, In k nc -> ~ in_class (l_env L) k x).
    { rewrite Exists_exists. split.
      - intros (it & I & Q). destruct (GF it I) as [A1 A2]. apply (in_gap _ _ _ _ A1 A2) in Q as [Q1 Q2]. eauto.
      - intros [(it & I & Q) K]. exists it. destruct (GF it I) as [A1 A2]. split; [exact I|]. apply (in_gap _ _ _ _ A1 A2). auto. }
    rewrite P, (G x) by lia. rewrite <- (exists_bare (l_env L) add x BA), (Fx x X). unfold in_set. rewrite !Exists_exists. split.
    + intros [N K] (t & T & I). destruct (is_class t) eqn:IC.
      * apply (K (t_cls L t)); [unfold nc; apply in_map, filter_In; auto|]. destruct t; try discriminate. exact I.
      * apply N. exists t. split; [exact T|]. split; auto.
    + intros N. split.
      * intros (t & T & _ & I). apply N. eauto.
      * intros k K I. unfold nc in K. apply in_map_iff in K as (t & <- & T). apply filter_In in T as [T IC]. apply N. exists t. split; [exact T|]. destruct t; try discriminate. exact I.
  - destruct add as [|s ss].
    { exfalso. exact (Fe eq_refl TS eq_refl). }
    exists s, ss. split; [reflexivity|]. split.
    { intros Q it I. specialize (Fb (or_intror Q)). rewrite Forall_forall in Fb. exact (Fb it I). }
    intros x X. specialize (Fx x X). rewrite Exists_exists in Fx. rewrite Fx. unfold in_set, listed. rewrite !Exists_exists.
    split; intros (t & T & Q); exists t; (split; [exact T|]); [tauto|]. split; [discriminate|exact Q].
Qed.
