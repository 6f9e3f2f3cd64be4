(** From the tokens back to the value. *)
From Coq Require Import ZArith List Bool Lia Sorted.
From Verif Require Import Bits UtfModel UtfSpec UtfProofs CodecModel TreeModel TreeSpec TreeProps JsonModel JsonSpec JsonProofs JsonProofs2 JsonProofs3 JsonProofs4 JsonProofs5 NumJson.
From Verif Require NumModel NumSpec.
Import ListNotations.
Local Open Scope Z_scope.

Section Prec.
Context {dp : prec}.

Definition gen_elems (f maxArr : nat) (js : list Z) (ts : list tok) (t : tok) :=
  fix elems g (i : nat) (n m : nat) (acc : list jval) {struct g} :=
     match g with
     | O => None
     | S g =>
         if Nat.ltb i (length ts) && (Z.of_nat n <? tsz t) then
           match (if Nat.leb m n then array_sizer maxArr (n + 1) else Some m) with
           | None => Some (JArr (rev acc), (i - 1)%nat)
           | Some m =>
               match gen f maxArr js ts i with
               | None => None
               | Some (v, i) => elems g (S i) (S n) m (v :: acc)
               end
           end
         else Some (JArr (rev acc), (i - 1)%nat)
     end.
Definition gen_fields (f maxArr : nat) (js : list Z) (ts : list tok) (t : tok) :=
  fix fields g (i : nat) (n : nat) (acc : list (list Z * jval)) {struct g} :=
     match g with
     | O => None
     | S g =>
         if Nat.ltb i (length ts) && (Z.of_nat n <? tsz t) then
           match nth_error ts i with
           | None => None
           | Some kt =>
               let key := firstn (Z.to_nat (snd (tokstr js kt))) (fst (tokstr js kt)) in
               if tsz t <=? Z.of_nat (S n) then
                 fields g (S (S i)) (S (S n)) (field_set strcmp key JUndef acc)
               else
                 match gen f maxArr js ts (S i) with
                 | None => None
                 | Some (v, i) => fields g (S i) (S (S n)) (field_set strcmp key v acc)
                 end
           end
         else Some (JObj acc, (i - 1)%nat)
     end.
Lemma gen_arr : forall f M js ts i t, nth_error ts i = Some t -> tty t = Arr ->
  gen (S f) M js ts i = gen_elems f M js ts t (S (length ts)) (S i) 0 0 [].
Proof. intros f M js ts i t H1 H2. cbn [gen]. rewrite H1, H2. reflexivity. Qed.
Lemma gen_obj : forall f M js ts i t, nth_error ts i = Some t -> tty t = Obj ->
  gen (S f) M js ts i = gen_fields f M js ts t (S (length ts)) (S i) 0 [].
Proof. intros f M js ts i t H1 H2. cbn [gen]. rewrite H1, H2. reflexivity. Qed.

Lemma sizer_ok : forall M n, (n + 18 < M)%nat -> exists k, array_sizer M (n + 1) = Some k.
Proof.
  intros M n H. unfold array_sizer.
  set (x := ((n + 1 + 1 + 15) mod 16)%nat). assert (x < 16)%nat by (apply Nat.mod_upper_bound; lia).
  destruct (Nat.leb_spec M (n + 1)); [lia|]. destruct (Nat.ltb_spec M (n + 1 + 1 + (15 - x))); [lia|]. cbn. eauto.
Qed.

Lemma skipn_lt : forall (A : Type) (l : list A) i x r, skipn i l = x :: r -> (i < length l)%nat /\ nth_error l i = Some x.
Proof.
  intros A l i x r H. pose proof (skipn_nth _ l i 0) as N. rewrite H, Nat.add_0_r in N. cbn in N.
  split; [apply nth_error_Some; congruence|congruence].
Qed.

Lemma ptoks_cons : forall v b par off, exists t r, ptoks v b par off = t :: r.
Proof. intros v b par off. destruct v; cbn [ptoks]; eauto. Qed.

Lemma firstn_app_exact : forall (A : Type) (a b : list A), firstn (length a) (a ++ b) = a.
Proof. intros. rewrite firstn_app, Nat.sub_diag, firstn_all. cbn. apply app_nil_r. Qed.

Lemma field_set_last : forall k v l, Forall (fun kv => strcmp (fst kv) k < 0) l -> field_set strcmp k v l = l ++ [(k, v)].
Proof.
  induction 1 as [|[k' v'] l Hk Hl IH]; [reflexivity|]. cbn [field_set fst app] in *.
  pose proof (strcmp_flip k k'). destruct (strcmp k k' <? 0) eqn:X; [b2p; lia|].
  destruct (strcmp k k' =? 0) eqn:Y; [b2p; lia|]. rewrite IH. reflexivity.
Qed.

Lemma num_not_word : forall t w, num_text t -> match w with c :: _ => c <> 45 /\ ~ 48 <= c <= 57 | [] => True end -> eqb_list t w = false.
Proof.
  intros [|c t] w (H1 & H2 & _) H; [congruence|]. destruct w as [|d w]; [reflexivity|]. cbn in H2.
  cbn [eqb_list]. destruct (c =? d) eqn:X; [b2p; lia|]. reflexivity.
Qed.

(* what the parser makes of a written tree *)
Definition merge (l : list (list Z * jval)) (acc : list (list Z * jval)) : list (list Z * jval) :=
  fold_left (fun acc kv => field_set strcmp (fst kv) (snd kv) acc) l acc.
Fixpoint canon (v : jval) : jval :=
  match v with
  | JArr l => JArr (map canon l)
  | JObj l => JObj (merge (map (fun kv => (fst kv, canon (snd kv))) l) [])
  | _ => v
  end.

Definition gens (M : nat) (js : list Z) (ts : list tok) (v : jval) : Prop :=
  forall f i off par TR rest, skipn i ts = ptoks v i par (Z.of_nat off) ++ TR -> skipn off js = txt v ++ rest -> NumSpec.stop rest ->
  (length ts - i < f)%nat ->
  gen f M js ts i = Some (canon v, (i + length (ptoks v i par (Z.of_nat off)) - 1)%nat).

Lemma stop_cat : forall G rest, NumSpec.stop rest -> NumSpec.stop (cat false G ++ rest).
Proof. intros [|t G] rest H; [exact H|]. cbn. lia. Qed.
Lemma elems_gen : forall M js ts t b f l, Forall (gens M js ts) l ->
  forall first g i n m acc o TR rest,
  skipn i ts = arr_kids b first l i (Z.of_nat o) ++ TR -> skipn o js = cat first (map txt l) ++ rest -> NumSpec.stop rest ->
  tsz t = Z.of_nat n + lenZ l -> (n + length l + 18 <= M)%nat -> (0 < i)%nat ->
  (length ts - i < f)%nat -> (length ts - i < g)%nat ->
  gen_elems f M js ts t g i n m acc = Some (JArr (rev acc ++ map canon l), (i + length (arr_kids b first l i (Z.of_nat o)) - 1)%nat).
Proof.
  intros M js ts t b f l HG. induction HG as [|v l Hv Hl IH]; intros first g i n m acc o TR rest HS HJ HR HZ HM HI HF Hg.
  - destruct g as [|g]; [lia|]. cbn [gen_elems arr_kids length].
    destruct (Z.of_nat n <? tsz t) eqn:X; [b2p; unfold lenZ in HZ; cbn [length] in HZ; lia|]. rewrite andb_false_r, app_nil_r.
    do 3 f_equal. lia.
  - destruct g as [|g]; [lia|]. cbn [arr_kids] in *. cbv zeta in *.
    set (o1 := (o + (if first then 0 else 2))%nat).
    assert (Eo : Z.of_nat o + (if first then 0 else 2) = Z.of_nat o1) by (subst o1; destruct first; lia).
    rewrite Eo in *. rewrite <- app_assoc in HS.
    assert (HJ1 : skipn o1 js = txt v ++ cat false (map txt l) ++ rest).
    { subst o1. destruct first; cbn [map cat app] in HJ.
      - rewrite Nat.add_0_r. rewrite <- app_assoc in HJ. auto.
      - rewrite <- app_assoc in HJ. apply (skipn_shift _ js o [44; 32]). auto. }
    pose proof (Hv f i o1 _ _ _ HS HJ1 (stop_cat _ _ HR) HF) as GV.
    destruct (ptoks_cons v i (Z.of_nat b) (Z.of_nat o1)) as (t0 & r0 & ET).
    assert (LI : (i < length ts)%nat). { rewrite ET in HS. cbn [app] in HS. apply skipn_lt in HS. tauto. }
    cbn [gen_elems]. rewrite (proj2 (Nat.ltb_lt _ _) LI).
    unfold lenZ in HZ. cbn [length] in HZ, HM.
    destruct (Z.of_nat n <? tsz t) eqn:X; [|b2p; lia]. cbn [andb].
    destruct (sizer_ok M n ltac:(lia)) as (k & Hk).
    assert (exists m', (if Nat.leb m n then array_sizer M (n + 1) else Some m) = Some m') as [m' ->] by (destruct (Nat.leb m n); eauto).
    rewrite GV. fold (gen_elems f M js ts t).
    set (L := length (ptoks v i (Z.of_nat b) (Z.of_nat o1))) in *.
    assert (0 < L)%nat by (subst L; rewrite ET; cbn [length]; lia).
    replace (S (i + L - 1)) with (i + L)%nat by lia.
    replace (Z.of_nat o1 + lenZ (txt v)) with (Z.of_nat (o1 + length (txt v))) in * by (unfold lenZ; lia).
    rewrite (IH false g (i + L)%nat (S n) m' (canon v :: acc) (o1 + length (txt v))%nat TR rest); auto; try lia.
    + cbn [rev map]. rewrite <- app_assoc. cbn [app]. rewrite app_length. fold L. do 3 f_equal. lia.
    + apply skipn_shift in HS. auto.
    + apply skipn_shift. auto.
    + unfold lenZ. lia.
Qed.

Lemma fields_gen : forall M js ts t b f l, Forall (fun kv => gens M js ts (snd kv)) l ->
  forall first g i n acc o TR rest,
  skipn i ts = obj_kids b first l i (Z.of_nat o) ++ TR ->
  skipn o js = cat first (map (fun kv => 34 :: fst kv ++ 34 :: 58 :: txt (snd kv)) l) ++ rest -> NumSpec.stop rest ->
  tsz t = Z.of_nat n + 2 * lenZ l -> (0 < i)%nat ->
  (length ts - i < f)%nat -> (length ts - i < g)%nat ->
  gen_fields f M js ts t g i n acc = Some (JObj (merge (map (fun kv => (fst kv, canon (snd kv))) l) acc), (i + length (obj_kids b first l i (Z.of_nat o)) - 1)%nat).
Proof.
  intros M js ts t b f l HG. induction HG as [|[k v] l Hv Hl IH]; intros first g i n acc o TR rest HS HJ HR HZ HI HF Hg.
  - destruct g as [|g]; [lia|]. cbn [gen_fields obj_kids length].
    destruct (Z.of_nat n <? tsz t) eqn:X; [b2p; unfold lenZ in HZ; cbn [length] in HZ; lia|]. rewrite andb_false_r.
    cbn [map merge fold_left]. do 2 f_equal. lia.
  - destruct g as [|g]; [lia|]. cbn [obj_kids] in *. cbv zeta in *. cbn [fst snd] in *.
    set (o1 := (o + (if first then 0 else 2))%nat).
    assert (Eo : Z.of_nat o + (if first then 0 else 2) = Z.of_nat o1) by (subst o1; destruct first; lia).
    rewrite Eo in *. cbn [app] in HS. rewrite <- app_assoc in HS.
    set (G := map (fun kv : list Z * jval => 34 :: fst kv ++ 34 :: 58 :: txt (snd kv)) l) in *.
    assert (HJ1 : skipn o1 js = 34 :: k ++ 34 :: 58 :: txt v ++ cat false G ++ rest).
    { subst o1. cbn [map fst snd] in HJ. fold G in HJ. destruct first; cbn [cat app] in HJ; rewrite <- !app_assoc in HJ; cbn [app] in HJ; rewrite <- ?app_assoc in HJ.
      - rewrite Nat.add_0_r. auto.
      - apply (skipn_shift _ js o [44; 32]). auto. }
    set (kt := mkTok Str (Z.of_nat o1 + 1) (Z.of_nat o1 + 1 + lenZ k) 0 (Z.of_nat b)) in *.
    destruct (skipn_lt _ _ _ _ _ HS) as [LI Nk].
    assert (KEY : firstn (Z.to_nat (snd (tokstr js kt))) (fst (tokstr js kt)) = k).
    { subst kt. unfold tokstr. cbn [tst ten fst snd]. unfold lenZ.
      replace (Z.to_nat (Z.of_nat o1 + 1)) with (S o1) by lia.
      replace (Z.to_nat (Z.of_nat o1 + 1 + Z.of_nat (length k) - (Z.of_nat o1 + 1))) with (length k) by lia.
      apply skipn_at in HJ1 as [_ ->]. apply firstn_app_exact. }
    assert (HS1 : skipn (S i) ts = ptoks v (S i) (Z.of_nat b) (Z.of_nat o1 + lenZ k + 3) ++
       obj_kids b false l (S i + length (ptoks v (S i) (Z.of_nat b) (Z.of_nat o1 + lenZ k + 3))) (Z.of_nat o1 + lenZ k + 3 + lenZ (txt v)) ++ TR).
    { replace (S i) with (i + 1)%nat at 1 by lia. apply (skipn_shift _ ts i [kt]). auto. }
    set (o2 := (o1 + length k + 3)%nat) in *.
    assert (Eo2 : Z.of_nat o1 + lenZ k + 3 = Z.of_nat o2) by (subst o2; unfold lenZ; lia).
    rewrite Eo2 in *.
    assert (HJ2 : skipn o2 js = txt v ++ cat false G ++ rest).
    { replace o2 with (o1 + length (34 :: k ++ [34; 58])%Z)%nat by (subst o2; cbn [length]; rewrite app_length; cbn [length]; lia).
      apply skipn_shift. rewrite HJ1. cbn [app]. rewrite <- app_assoc. reflexivity. }
    assert (HF1 : (length ts - S i < f)%nat) by lia.
    pose proof (Hv f (S i) o2 _ _ _ HS1 HJ2 (stop_cat _ _ HR) HF1) as GV.
    cbn [gen_fields]. rewrite (proj2 (Nat.ltb_lt _ _) LI). unfold lenZ in HZ. cbn [length] in HZ.
    destruct (Z.of_nat n <? tsz t) eqn:X; [|b2p; lia]. cbn [andb]. rewrite Nk. cbv zeta. rewrite KEY.
    destruct (tsz t <=? Z.of_nat (S n)) eqn:Y; [b2p; lia|]. rewrite GV. fold (gen_fields f M js ts t).
    set (L := length (ptoks v (S i) (Z.of_nat b) (Z.of_nat o2))) in *.
    destruct (ptoks_cons v (S i) (Z.of_nat b) (Z.of_nat o2)) as (t0 & r0 & ET).
    assert (0 < L)%nat by (subst L; rewrite ET; cbn [length]; lia).
    replace (S (S i + L - 1)) with (S i + L)%nat by lia.
    replace (Z.of_nat o2 + lenZ (txt v)) with (Z.of_nat (o2 + length (txt v))) in * by (unfold lenZ; lia).
    rewrite (IH false g (S i + L)%nat (S (S n)) (field_set strcmp k (canon v) acc) (o2 + length (txt v))%nat TR rest); auto; try lia.
    + cbn [app length map merge fold_left fst snd]. rewrite app_length. fold L. do 2 f_equal. lia.
    + apply skipn_shift in HS1. auto.
    + apply skipn_shift. auto.
    + unfold lenZ. lia.
Qed.

Lemma val_gen : forall M js ts v, json_tree dp M v -> gens M js ts v.
Proof.
  intros M js ts v. induction v using jval_ind'; intros OK f i off par TR rest HS HJ HR HF.
  - inversion OK.
  - destruct f as [|f]; [lia|]. cbn [ptoks app] in HS. apply skipn_lt in HS as [_ N]. cbn [gen]. rewrite N. cbn [tty]. unfold tokstr, lenZ. cbn [tst ten fst snd].
    rewrite Nat2Z.id, HJ. replace (Z.to_nat _) with (length (txt JNull)) by lia. rewrite firstn_app_exact. cbn [ptoks length].
    change (eqb_list (txt JNull) s_null) with true. cbn iota. do 2 f_equal. lia.
  - destruct f as [|f]; [lia|]. cbn [ptoks app] in HS. apply skipn_lt in HS as [_ N]. cbn [gen]. rewrite N. cbn [tty]. unfold tokstr, lenZ. cbn [tst ten fst snd].
    rewrite Nat2Z.id, HJ. replace (Z.to_nat _) with (length (txt (JBool b))) by lia. rewrite firstn_app_exact. cbn [ptoks length].
    destruct b; cbn; do 2 f_equal; lia.
  - destruct f as [|f]; [lia|]. cbn [ptoks app] in HS. apply skipn_lt in HS as [_ N]. cbn [gen]. rewrite N. cbn [tty]. unfold tokstr, lenZ. cbn [tst ten fst snd].
    rewrite Nat2Z.id, HJ. replace (Z.to_nat _) with (length (txt (JNum n))) by lia. rewrite firstn_app_exact. cbn [ptoks length].
    inversion OK; subst. destruct (carried_text dp n H0) as [NT SD]. cbn [txt].
    rewrite !num_not_word by (auto; cbn; lia). rewrite SD by auto. do 2 f_equal. lia.
  - destruct f as [|f]; [lia|]. inversion OK as [| | |cs Hcs| |]; subst. cbn [ptoks app] in HS. cbn [txt] in *.
    rewrite json_string_text in * by auto.
    apply skipn_lt in HS as [_ N]. cbn [gen]. rewrite N. cbn [tty]. unfold tokstr, lenZ. cbn [tst ten].
    cbn [length]. rewrite app_length. cbn [length app] in *. rewrite <- app_assoc in HJ.
    replace (Z.to_nat (Z.of_nat off + 1)) with (S off) by lia.
    apply skipn_at in HJ as [_ ->].
    replace (Z.of_nat off + Z.of_nat (S (length (flat_map esc1 cs) + 1)) - 1 - (Z.of_nat off + 1)) with (Z.of_nat (length (flat_map esc1 cs))) by lia.
    rewrite unescape_text by (auto; lia). cbn [ptoks length]. do 2 f_equal. lia.
  - destruct f as [|f]; [lia|]. apply ok_arr_inv in OK as [OK LM].
    assert (HG : Forall (gens M js ts) l).
    { apply Forall_forall. intros v Hv. rewrite Forall_forall in H, OK. apply H; auto. }
    rewrite ptoks_arr in *. cbn [app] in HS. destruct (skipn_lt _ _ _ _ _ HS) as [LI N].
    rewrite (gen_arr f M js ts i _ N eq_refl).
    replace (Z.of_nat off + 2) with (Z.of_nat (off + 2)) in * by lia.
    assert (HS1 : skipn (S i) ts = arr_kids i true l (S i) (Z.of_nat (off + 2)) ++ TR).
    { replace (S i) with (i + 1)%nat at 1 by lia. apply (skipn_shift _ ts i [mkTok Arr (Z.of_nat off) (Z.of_nat off + lenZ (txt (JArr l))) (lenZ l) par]). auto. }
    destruct l as [|v l].
    + cbn [gen_elems tsz]. change (Z.of_nat 0 <? lenZ (@nil jval)) with false. rewrite andb_false_r. cbn [rev arr_kids length].
      do 2 f_equal. lia.
    + rewrite (elems_gen M js ts _ i f (v :: l) HG true (S (length ts)) (S i) 0 0 [] (off + 2)%nat TR ([32; 93] ++ rest)); cbn [tsz]; auto; try lia; try (cbn; lia).
      * cbn [rev app length]. do 2 f_equal. lia.
      * change (txt (JArr (v :: l))) with ([91; 32] ++ cat true (map txt (v :: l)) ++ [32; 93]) in HJ.
        rewrite <- !app_assoc in HJ. apply (skipn_shift _ js off [91; 32]) in HJ. auto.
  - destruct f as [|f]; [lia|]. apply ok_obj_inv in OK as (_ & OK).
    assert (HG : Forall (fun kv => gens M js ts (snd kv)) l).
    { apply Forall_forall. intros v Hv. rewrite Forall_forall in H, OK. apply H; auto. }
    rewrite ptoks_obj in *. cbn [app] in HS. destruct (skipn_lt _ _ _ _ _ HS) as [LI N].
    rewrite (gen_obj f M js ts i _ N eq_refl).
    replace (Z.of_nat off + 2) with (Z.of_nat (off + 2)) in * by lia.
    assert (HS1 : skipn (S i) ts = obj_kids i true l (S i) (Z.of_nat (off + 2)) ++ TR).
    { replace (S i) with (i + 1)%nat at 1 by lia. apply (skipn_shift _ ts i [mkTok Obj (Z.of_nat off) (Z.of_nat off + lenZ (txt (JObj l))) (2 * lenZ l) par]). auto. }
    destruct l as [|v l].
    + cbn [gen_fields tsz]. change (Z.of_nat 0 <? 2 * lenZ (@nil (list Z * jval))) with false. rewrite andb_false_r. cbn [obj_kids length].
      do 2 f_equal. lia.
    + rewrite (fields_gen M js ts _ i f (v :: l) HG true (S (length ts)) (S i) 0 [] (off + 2)%nat TR ([32; 125] ++ rest)); cbn [tsz]; auto; try lia; try (cbn; lia).
      * cbn [app length]. do 2 f_equal. lia.
      * change (txt (JObj (v :: l))) with ([123; 32] ++ cat true (map (fun kv => 34 :: fst kv ++ 34 :: 58 :: txt (snd kv)) (v :: l)) ++ [32; 125]) in HJ.
        rewrite <- !app_assoc in HJ. apply (skipn_shift _ js off [123; 32]) in HJ. auto.
Qed.

End Prec.
