From Coq Require Import ZArith List Bool Lia.
Import ListNotations.
From Verif Require Import Bits DictModel DictSpec DictProofs.
Local Open Scope Z_scope.
Ltac zbb := repeat match goal with
  | H : _ && _ = true |- _ => apply andb_true_iff in H; destruct H
  | H : _ && _ = false |- _ => apply andb_false_iff in H
  | H : _ \/ _ |- _ => destruct H
  end; try discriminate; b2p; lia.

(** * Lexicographic comparison *)
Fixpoint lexz (a b : list Z) : Z :=
  match a, b with
  | [], [] => 0
  | [], _ => -1
  | _, [] => 1
  | x :: a, y :: b => if x <? y then -1 else if y <? x then 1 else lexz a b
  end.
Lemma lexz_refl : forall a, lexz a a = 0.
Proof. induction a as [|x a IH]; simpl; auto. rewrite Z.ltb_irrefl. auto. Qed.
Lemma lexz_0 : forall a b, lexz a b = 0 -> a = b.
Proof.
  induction a as [|x a IH]; intros [|y b] H; simpl in H; try discriminate; auto.
  destruct (x <? y) eqn:E1; [discriminate|]. destruct (y <? x) eqn:E2; [discriminate|].
  f_equal; [zbb | auto].
Qed.
Lemma lexz_trans : forall a b c, lexz a b <= 0 -> lexz b c <= 0 ->
  lexz a c <= 0 /\ (lexz a c = 0 -> a = b /\ b = c).
Proof.
  induction a as [|x a IH]; intros [|y b] [|z c] H1 H2; simpl in *; try lia; auto.
  destruct (x <? y) eqn:E1, (y <? x) eqn:E2, (y <? z) eqn:E3, (z <? y) eqn:E4, (x <? z) eqn:E5, (z <? x) eqn:E6;
    try (exfalso; zbb); try (split; [lia | intros; lia]).
  destruct (IH b c H1 H2) as [H3 H4]. split; auto. intros H. destruct (H4 H) as [-> ->].
  assert (x = y /\ y = z) as [-> ->] by zbb. auto.
Qed.
Lemma lexz_app : forall p a b, lexz (p ++ a) (p ++ b) = lexz a b.
Proof. induction p as [|x p IH]; intros; simpl; auto. rewrite Z.ltb_irrefl. auto. Qed.
Lemma lexz_app2 : forall p q a b, length p = length q -> lexz (p ++ a) (q ++ b) = if lexz p q =? 0 then lexz a b else lexz p q.
Proof.
  induction p as [|x p IH]; intros [|y q] a b H; try discriminate; auto. cbn [app lexz].
  destruct (x <? y); auto. destruct (y <? x); auto.
Qed.
Lemma lexz_before : forall a b, before a b <-> lexz a b < 0.
Proof.
  split.
  - induction 1 as [| a b s t H | a s t H IH]; simpl; try lia.
    + destruct (a <? b) eqn:E; zbb.
    + rewrite Z.ltb_irrefl. auto.
  - revert b. induction a as [|x a IH]; intros [|y b] H; simpl in H; try lia; [constructor|].
    destruct (x <? y) eqn:E1; [apply before_char; zbb|]. destruct (y <? x) eqn:E2; [lia|].
    assert (x = y) as -> by zbb. apply before_next. auto.
Qed.

Lemma lower_bounds : forall c, c <= lower c /\ (c <= 64 -> lower c = c).
Proof. intros c. unfold lower. destruct (65 <=? c) eqn:E1, (c <=? 90) eqn:E2; cbn [andb]; zbb. Qed.

(** * Tokens: numbers and single characters *)
Fixpoint take_num (s : list Z) : list Z * list Z :=
  match s with
  | [] => ([], [])
  | c :: r =>
      if isdigit c then
        match r with
        | k :: r' => if k =? 44 then let '(ds, t) := take_num r' in (c :: ds, t)
                     else let '(ds, t) := take_num r in (c :: ds, t)
        | [] => ([c], [])
        end
      else ([], s)
  end.
Lemma take_num_digit : forall c r, isdigit c = true ->
  take_num (c :: r) = let '(ds, t) := take_num (skip_comma r) in (c :: ds, t).
Proof. intros c [|k r] H; cbn [take_num skip_comma]; rewrite H; auto. destruct (k =? 44); auto. Qed.
Lemma take_num_non : forall s, isdigit (hd0 s) = false -> take_num s = ([], s).
Proof. intros [|c r] H; auto. cbn [take_num]. cbn [hd0] in H. rewrite H. auto. Qed.
Lemma skip_comma_suffix : forall s, exists u, s = u ++ skip_comma s.
Proof. intros [|c r]; [exists []; auto|]. cbn. destruct (c =? 44); [exists [c] | exists []]; auto. Qed.
Lemma take_num_suffix : forall n s, (length s <= n)%nat -> exists u, s = u ++ snd (take_num s) /\ Forall (fun d => isdigit d = true) (fst (take_num s)) /\
  (isdigit (hd0 s) = true -> (length (snd (take_num s)) < length s)%nat /\ fst (take_num s) <> []).
Proof.
  induction n as [|n IH]; intros s Hn.
  - destruct s; [|cbn in Hn; lia]. exists []. split; auto. split; [constructor | discriminate].
  - destruct (isdigit (hd0 s)) eqn:E.
    + destruct (hd0_digit s E) as (c & r & -> & Ec). rewrite take_num_digit by auto.
      destruct (skip_comma_suffix r) as (v & Hv). pose proof (skip_comma_len r) as L. cbn [length] in Hn.
      destruct (IH (skip_comma r) ltac:(lia)) as (u & H1 & H2 & H3).
      destruct (take_num (skip_comma r)) as [ds t]. cbn [fst snd] in *.
      exists (c :: v ++ u). split; [cbn [app]; rewrite <- app_assoc; congruence|]. split; [constructor; auto|].
      intros _. split; [|discriminate].
      assert (length (skip_comma r) = length u + length t)%nat by (rewrite H1, app_length; auto). cbn [length]. lia.
    + rewrite take_num_non by auto. exists []. split; auto. split; [constructor | discriminate].
Qed.

(** The comparison of two numbers *)
Fixpoint fdiff (d : Z) (a b : list Z) : Z :=
  match a, b with
  | x :: a, y :: b => fdiff (if d =? 0 then x - y else d) a b
  | _, _ => d
  end.
Lemma numbers_ok : forall f l r d x, numbers f l r d = Some x -> isdigit (hd0 l) = true -> isdigit (hd0 r) = true ->
  let '(ds, l') := take_num l in let '(es, r') := take_num r in
  x = if (length ds <? length es)%nat then inl (-1) else if (length es <? length ds)%nat then inl 1
      else if fdiff d ds es =? 0 then inr (l', r') else inl (fdiff d ds es).
Proof.
  induction f as [|f IH]; intros l r d x H Hl Hr; [discriminate|].
  destruct (hd0_digit l Hl) as (c & l1 & -> & Ec), (hd0_digit r Hr) as (e & r1 & -> & Ee).
  rewrite !take_num_digit by auto. cbn [numbers tl hd0] in H. cbv zeta in H.
  set (d' := if d =? 0 then c - e else d) in *.
  destruct (isdigit (hd0 (skip_comma r1))) eqn:E1; cbn [negb] in H.
  - destruct (isdigit (hd0 (skip_comma l1))) eqn:E2; cbn [negb] in H.
    + specialize (IH _ _ _ _ H E2 E1). destruct (take_num (skip_comma l1)) as [ds l'], (take_num (skip_comma r1)) as [es r'].
      cbn [length fdiff]. exact IH.
    + rewrite (take_num_non (skip_comma l1)) by auto.
      destruct (take_num_suffix _ (skip_comma r1) (le_n _)) as (u & _ & _ & H3). destruct (H3 E1) as [_ H4].
      destruct (take_num (skip_comma r1)) as [[|e' es] r']; [contradiction|]. cbn. congruence.
  - rewrite (take_num_non (skip_comma r1)) by auto.
    destruct (isdigit (hd0 (skip_comma l1))) eqn:E2.
    + destruct (take_num_suffix _ (skip_comma l1) (le_n _)) as (u & _ & _ & H3). destruct (H3 E2) as [_ H4].
      destruct (take_num (skip_comma l1)) as [[|e' es] r']; [contradiction|]. cbn. congruence.
    + rewrite (take_num_non (skip_comma l1)) by auto. cbn. fold d'. destruct (d' =? 0); cbn [negb] in H; congruence.
Qed.
Lemma fdiff_nz : forall a b d, d <> 0 -> fdiff d a b = d.
Proof. induction a as [|x a IH]; intros [|y b] d H; auto. cbn [fdiff]. destruct (Z.eqb_spec d 0); [contradiction | auto]. Qed.
Lemma fdiff_lexz : forall a b, length a = length b -> Z.sgn (fdiff 0 a b) = lexz a b.
Proof.
  induction a as [|x a IH]; intros [|y b] H; try discriminate; auto. cbn [fdiff lexz Z.eqb].
  destruct (x <? y) eqn:E1; [rewrite fdiff_nz; zbb|]. destruct (y <? x) eqn:E2; [rewrite fdiff_nz; zbb|].
  replace (x - y) with 0 by zbb. auto.
Qed.

Inductive tok := Num (z : Z) (ds : list Z) | Chr (c : Z).
Fixpoint toks (n : nat) (s : list Z) : list tok :=
  match n with
  | O => []
  | S n =>
      match s with
      | [] => []
      | c :: r => if isdigit c then let '(t, z) := skip_zeros s in let '(ds, t) := take_num t in Num z ds :: toks n t
                  else Chr c :: toks n r
      end
  end.
Definition pkey (t : tok) : list Z :=
  match t with Num _ ds => 48 :: Z.of_nat (length ds) :: ds | Chr c => [lower c] end.
Definition skey (t : tok) : list Z :=
  match t with Num z _ => [z] | Chr c => [if isupper c then 0 else 1] end.
Definition pk := flat_map pkey.
Definition sk := flat_map skey.
Definition verdict (ts us : list tok) (d : Z) : Z :=
  if lexz (pk ts) (pk us) =? 0 then (if d =? 0 then lexz (sk ts) (sk us) else Z.sgn d) else lexz (pk ts) (pk us).

Lemma skip_zeros_suffix : forall s, s = repeat 48 (Z.to_nat (snd (skip_zeros s))) ++ fst (skip_zeros s) /\ 0 <= snd (skip_zeros s).
Proof.
  induction s as [|c r IH]; [simpl; split; auto; lia|]. cbn [skip_zeros].
  destruct ((c =? 48) && isdigit (hd0 r)) eqn:E; [|simpl; split; auto; lia].
  destruct (skip_zeros r) as [t n]. cbn [fst snd] in *. destruct IH as [IH Hn]. apply andb_true_iff in E. destruct E as [E _].
  apply Z.eqb_eq in E. subst c. split; [|lia]. replace (Z.to_nat (n + 1)) with (S (Z.to_nat n)) by lia. cbn [repeat app]. congruence.
Qed.
Lemma Forall_suffix : forall (P : Z -> Prop) s u v, Forall P s -> s = u ++ v -> Forall P v.
Proof. intros P s u v H ->. apply Forall_app in H. tauto. Qed.

(** After a number *)
Definition after (s : list Z) : list Z := snd (take_num (fst (skip_zeros s))).
Lemma after_suffix : forall s, exists u, s = u ++ after s.
Proof.
  intros s. unfold after. destruct (skip_zeros_suffix s) as [H _].
  destruct (take_num_suffix _ (fst (skip_zeros s)) (le_n _)) as (u & H2 & _).
  exists (repeat 48 (Z.to_nat (snd (skip_zeros s))) ++ u). rewrite <- app_assoc, <- H2. auto.
Qed.
Lemma after_len : forall s, isdigit (hd0 s) = true -> (length (after s) < length s)%nat.
Proof.
  intros s H. unfold after. destruct (skip_zeros s) as [t z] eqn:E. cbn [fst].
  pose proof (skip_zeros_digit _ _ _ E H) as Ht. pose proof (skip_zeros_len _ _ _ E) as L.
  destruct (take_num_suffix _ t (le_n _)) as (u & _ & _ & H3). destruct (H3 Ht). lia.
Qed.
Lemma toks_num : forall n c r, isdigit c = true -> toks (S n) (c :: r) =
  Num (snd (skip_zeros (c :: r))) (fst (take_num (fst (skip_zeros (c :: r))))) :: toks n (after (c :: r)).
Proof.
  intros n c r H. cbn [toks]. rewrite H. unfold after. destruct (skip_zeros (c :: r)) as [t z]. cbn [fst snd].
  destruct (take_num t); auto.
Qed.
Lemma toks_chr : forall n c r, isdigit c = false -> toks (S n) (c :: r) = Chr c :: toks n r.
Proof. intros n c r H. cbn [toks]. rewrite H. auto. Qed.

Lemma verdict_end : forall d, verdict [] [] d = Z.sgn d.
Proof. intros d. unfold verdict. simpl. destruct (Z.eqb_spec d 0); subst; auto. Qed.
Lemma verdict_cons : forall t u ts us d, length (pkey t) = length (pkey u) -> length (skey t) = length (skey u) ->
  verdict (t :: ts) (u :: us) d =
  if lexz (pkey t) (pkey u) =? 0 then
    verdict ts us (if d =? 0 then lexz (skey t) (skey u) else d)
  else lexz (pkey t) (pkey u).
Proof.
  intros t u ts us d H1 H2. unfold verdict, pk, sk. cbn [flat_map]. rewrite !lexz_app2 by auto.
  destruct (Z.eqb_spec (lexz (pkey t) (pkey u)) 0) as [E|E].
  - destruct (Z.eqb_spec (lexz (flat_map pkey ts) (flat_map pkey us)) 0) as [E2|E2]; auto.
    destruct (Z.eqb_spec d 0) as [-> | Hd].
    + destruct (Z.eqb_spec (lexz (skey t) (skey u)) 0) as [E3|E3]; auto.
      assert (forall a b, Z.sgn (lexz a b) = lexz a b) as S.
      { induction a as [|x a IH]; intros [|y b]; simpl; auto. destruct (x <? y); auto. destruct (y <? x); auto. }
      rewrite S. auto.
    + destruct (Z.eqb_spec d 0); [contradiction | auto].
  - destruct (Z.eqb_spec (lexz (pkey t) (pkey u)) 0); [contradiction | auto].
Qed.
(** The first characters decide *)
Lemma verdict_lt : forall t u ts us d x y p q, pkey t = x :: p -> pkey u = y :: q -> x < y -> verdict (t :: ts) (u :: us) d = -1.
Proof.
  intros t u ts us d x y p q H1 H2 H. unfold verdict, pk. cbn [flat_map]. rewrite H1, H2. cbn [app lexz].
  destruct (x <? y) eqn:E; [auto | zbb].
Qed.
Lemma verdict_gt : forall t u ts us d x y p q, pkey t = x :: p -> pkey u = y :: q -> y < x -> verdict (t :: ts) (u :: us) d = 1.
Proof.
  intros t u ts us d x y p q H1 H2 H. unfold verdict, pk. cbn [flat_map]. rewrite H1, H2. cbn [app lexz].
  destruct (x <? y) eqn:E; [zbb|]. destruct (y <? x) eqn:E2; [auto | zbb].
Qed.
Lemma sgn_lexz1 : forall x y, lexz [x] [y] = Z.sgn (x - y).
Proof. intros. cbn [lexz]. destruct (x <? y) eqn:E1; [zbb|]. destruct (y <? x) eqn:E2; zbb. Qed.

Lemma compare_num : forall f l r d x, isdigit (hd0 r) = true -> isdigit (hd0 l) = true ->
  compare_loop (S f) l r d = Some x ->
  let ds := fst (take_num (fst (skip_zeros l))) in let es := fst (take_num (fst (skip_zeros r))) in
  let z := snd (skip_zeros l) - snd (skip_zeros r) in
  if (length ds <? length es)%nat then x = -1 else if (length es <? length ds)%nat then x = 1
  else if fdiff 0 ds es =? 0 then compare_loop f (after l) (after r) (if d =? 0 then z else d) = Some x
  else x = fdiff 0 ds es.
Proof.
  intros f l r d x Hr Hl H ds es z. cbn [compare_loop] in H. rewrite Hr, Hl in H. cbn [andb] in H.
  unfold after, ds, es, z in *. destruct (skip_zeros r) as [r1 zr] eqn:Er, (skip_zeros l) as [l1 zl] eqn:El. cbn [fst snd] in *.
  pose proof (skip_zeros_digit _ _ _ El Hl) as Hl1. pose proof (skip_zeros_digit _ _ _ Er Hr) as Hr1.
  destruct (numbers (S (length l1)) l1 r1 0) as [y|] eqn:En; [|discriminate].
  pose proof (numbers_ok _ _ _ _ _ En Hl1 Hr1) as Ey.
  destruct (take_num l1) as [ds' l'], (take_num r1) as [es' r']. cbn [fst snd].
  destruct (length ds' <? length es')%nat; [subst y; congruence|].
  destruct (length es' <? length ds')%nat; [subst y; congruence|].
  destruct (fdiff 0 ds' es' =? 0); subst y; congruence.
Qed.

Theorem compare_key : forall f l r d x n m, plain l -> plain r -> (length l <= n)%nat -> (length r <= m)%nat ->
  compare_loop f l r d = Some x -> Z.sgn x = verdict (toks n l) (toks m r) d.
Proof.
  induction f as [|f IH]; intros l r d x n m Pl Pr Hn Hm H; [discriminate|].
  destruct (isdigit (hd0 r) && isdigit (hd0 l)) eqn:E.
  - apply andb_true_iff in E. destruct E as [Er El].
    pose proof (compare_num _ _ _ _ _ Er El H) as C. cbv zeta in C.
    destruct (hd0_digit _ Er) as (c & r1 & Hr1 & Ec), (hd0_digit _ El) as (e & l1 & Hl1 & Ee).
    destruct n as [|n]; [rewrite Hl1 in Hn; cbn in Hn; lia|]. destruct m as [|m]; [rewrite Hr1 in Hm; cbn in Hm; lia|].
    rewrite Hr1, Hl1, !toks_num, <- Hr1, <- Hl1 by auto.
    set (ds := fst (take_num (fst (skip_zeros l)))) in *. set (es := fst (take_num (fst (skip_zeros r)))) in *.
    destruct (Nat.ltb_spec (length ds) (length es)) as [E1|E1].
    { subst x. unfold verdict, pk. cbn [flat_map pkey app lexz]. rewrite Z.ltb_irrefl.
      destruct (Z.of_nat (length ds) <? Z.of_nat (length es)) eqn:E2; [reflexivity | zbb]. }
    destruct (Nat.ltb_spec (length es) (length ds)) as [E2|E2].
    { subst x. unfold verdict, pk. cbn [flat_map pkey app lexz]. rewrite Z.ltb_irrefl.
      destruct (Z.of_nat (length ds) <? Z.of_nat (length es)) eqn:E3; [zbb|].
      destruct (Z.of_nat (length es) <? Z.of_nat (length ds)) eqn:E4; [reflexivity | zbb]. }
    assert (EL : length ds = length es) by lia.
    rewrite verdict_cons by (cbn [pkey length]; auto).
    assert (K : lexz (pkey (Num (snd (skip_zeros l)) ds)) (pkey (Num (snd (skip_zeros r)) es)) = Z.sgn (fdiff 0 ds es)).
    { cbn [pkey lexz]. rewrite Z.ltb_irrefl, EL, Z.ltb_irrefl. symmetry. apply fdiff_lexz. auto. }
    rewrite K. destruct (Z.eqb_spec (fdiff 0 ds es) 0) as [E3|E3].
    + rewrite E3. cbn [Z.sgn Z.eqb skey]. rewrite sgn_lexz1.
      destruct (after_suffix l) as (u & Hu), (after_suffix r) as (v & Hv).
      pose proof (after_len l El). pose proof (after_len r Er).
      rewrite (IH _ _ _ _ n m (Forall_suffix _ _ _ _ Pl Hu) (Forall_suffix _ _ _ _ Pr Hv) ltac:(lia) ltac:(lia) C).
      destruct (Z.eqb_spec d 0) as [E4|E4]; auto.
      unfold verdict. destruct (_ =? 0); auto. rewrite Z.sgn_sgn.
      destruct (Z.eqb_spec (snd (skip_zeros l) - snd (skip_zeros r)) 0) as [-> | E5]; auto.
      destruct (Z.eqb_spec (Z.sgn (snd (skip_zeros l) - snd (skip_zeros r))) 0); auto. lia.
    + subst x. destruct (Z.eqb_spec (Z.sgn (fdiff 0 ds es)) 0); auto. lia.
  - cbn [compare_loop] in H. rewrite E in H. cbv zeta in H.
    destruct l as [|c l].
    { replace (toks n []) with (@nil tok) by (destruct n; reflexivity). cbn [hd0 tl] in *.
      destruct r as [|e r]; cbn [hd0 tl] in *.
      - replace (toks m []) with (@nil tok) by (destruct m; reflexivity). cbn in H. injection H as <-. rewrite verdict_end. auto.
      - inversion Pr as [|? ? [P1 P2] _]; subst.
        destruct (Z.eqb_spec (0 - e) 0); [lia|]. change (isupper 0) with false in H. change (islower 0) with false in H.
        rewrite andb_false_r in H. cbn [andb] in H. injection H as <-.
        destruct m as [|m]; [cbn in Hm; lia|]. unfold verdict.
        assert (X : exists a b, pk (toks (S m) (e :: r)) = a :: b).
        { destruct (isdigit e) eqn:E3; [rewrite toks_num by auto | rewrite toks_chr by auto]; unfold pk; cbn; eauto. }
        destruct X as (a & b & ->). cbn. lia. }
    inversion Pl as [|? ? [Pc1 Pc2] Pl1]; subst.
    destruct n as [|n]; [cbn in Hn; lia|].
    destruct r as [|e r].
    { cbn [hd0 tl] in *. replace (toks m []) with (@nil tok) by (destruct m; reflexivity).
      destruct (Z.eqb_spec (c - 0) 0); [lia|]. change (isupper 0) with false in H. change (islower 0) with false in H.
      rewrite andb_false_r in H. cbn [andb] in H. injection H as <-. unfold verdict.
      assert (X : exists a b, pk (toks (S n) (c :: l)) = a :: b).
      { destruct (isdigit c) eqn:E3; [rewrite toks_num by auto | rewrite toks_chr by auto]; unfold pk; cbn; eauto. }
      destruct X as (a & b & ->). cbn. lia. }
    inversion Pr as [|? ? [Pe1 Pe2] Pr1]; subst.
    destruct m as [|m]; [cbn in Hm; lia|].
    cbn [hd0 tl] in *. cbn [length] in Hn, Hm.
    destruct (Z.eqb_spec c 0); [lia|].
    destruct (isdigit c) eqn:Dc.
    { assert (De : isdigit e = false) by (destruct (isdigit e); auto). rewrite toks_num, toks_chr by auto.
      unfold isdigit in Dc, De. unfold isupper, islower in H.
      destruct (65 <=? c) eqn:B1; [exfalso; zbb|]. destruct (97 <=? c) eqn:B2; [exfalso; zbb|]. cbn [andb] in H. rewrite andb_false_r in H.
      destruct (Z.eqb_spec (c - e) 0) as [B3|B3]; [exfalso; assert (c = e) by lia; subst; congruence|]. injection H as <-.
      destruct (Z.lt_ge_cases c e).
      - erewrite verdict_lt; [|reflexivity|reflexivity|]; [lia|]. destruct (lower_bounds c) as [? ?]; destruct (lower_bounds e) as [? ?]; zbb.
      - erewrite verdict_gt; [|reflexivity|reflexivity|]; [lia|]. destruct (lower_bounds c) as [? ?]; destruct (lower_bounds e) as [? ?]; zbb. }
    destruct (isdigit e) eqn:De.
    { rewrite toks_chr, toks_num by auto.
      unfold isdigit in Dc, De. unfold isupper, islower in H.
      destruct (65 <=? e) eqn:B1; [exfalso; zbb|]. destruct (97 <=? e) eqn:B2; [exfalso; zbb|]. cbn [andb] in H. rewrite andb_false_r in H.
      destruct (Z.eqb_spec (c - e) 0) as [B3|B3]; [exfalso; assert (c = e) by lia; subst; congruence|]. injection H as <-.
      destruct (Z.lt_ge_cases c e).
      - erewrite verdict_lt; [|reflexivity|reflexivity|]; [lia|]. destruct (lower_bounds c) as [? ?]; destruct (lower_bounds e) as [? ?]; zbb.
      - erewrite verdict_gt; [|reflexivity|reflexivity|]; [lia|]. destruct (lower_bounds c) as [? ?]; destruct (lower_bounds e) as [? ?]; zbb. }
    rewrite !toks_chr by auto. rewrite verdict_cons by reflexivity. cbn [pkey skey]. rewrite !sgn_lexz1.
    clear Dc De E.
    assert (LC : forall w, Z.sgn w = Z.sgn (lower c - lower e) -> w <> 0 -> Z.sgn w = (if Z.sgn (lower c - lower e) =? 0 then verdict (toks n l) (toks m r) (if d =? 0 then Z.sgn ((if isupper c then 0 else 1) - (if isupper e then 0 else 1)) else d) else Z.sgn (lower c - lower e))).
    { intros w Hw Hw0. rewrite <- Hw. destruct (Z.eqb_spec (Z.sgn w) 0); [lia | auto]. }
    unfold lower in *. fold (isupper c) (isupper e) in *.
    destruct (Z.eqb_spec (c - e) 0) as [E1|E1].
    { assert (c = e) by lia. subst e. rewrite !Z.sub_diag. cbn [Z.sgn Z.eqb].
      rewrite (IH _ _ _ _ n m Pl1 Pr1 ltac:(lia) ltac:(lia) H). destruct (Z.eqb_spec d 0); subst; auto. }
    destruct (isupper c) eqn:U1, (isupper e) eqn:U2, (islower c) eqn:L1, (islower e) eqn:L2; cbn [andb] in H;
      unfold isupper, islower in U1, U2, L1, L2; try (exfalso; zbb);
      try (injection H as <-; apply LC; zbb).
    + destruct (Z.eqb_spec (c + 32 - e) 0) as [E2|E2]; cbn [negb] in H; [|injection H as <-; apply LC; auto].
      rewrite (IH _ _ _ _ n m Pl1 Pr1 ltac:(lia) ltac:(lia) H). rewrite E2. reflexivity.
    + destruct (Z.eqb_spec (c - (e + 32)) 0) as [E2|E2]; cbn [negb] in H; [|injection H as <-; apply LC; auto].
      rewrite (IH _ _ _ _ n m Pl1 Pr1 ltac:(lia) ltac:(lia) H). rewrite E2. reflexivity.
Qed.
