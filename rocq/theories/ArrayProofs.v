(** Array operations on the level of slots. *)
From Coq Require Import ZArith List Bool Lia.
From Verif Require Import Bits ArrayModel ArraySpec.
Import ListNotations.
Local Open Scope nat_scope.

Lemma put_mid : forall a x b v, put (a ++ x :: b) (length a) v = Some (a ++ v :: b).
Proof.
  intros. unfold put. rewrite app_length. cbn [length]. destruct (Nat.ltb_spec (length a) (length a + S (length b))); [|lia].
  rewrite firstn_app, firstn_all, Nat.sub_diag, firstn_O, app_nil_r.
  rewrite skipn_app. rewrite (skipn_all2 a) by lia. replace (S (length a) - length a) with 1 by lia. reflexivity.
Qed.
Lemma get_mid : forall a x b, get (a ++ x :: b) (length a) = Some x.
Proof. intros. unfold get. rewrite nth_error_app2, Nat.sub_diag by lia. reflexivity. Qed.
Lemma put_mid' : forall a x b v i, i = length a -> put (a ++ x :: b) i v = Some (a ++ v :: b).
Proof. intros; subst; apply put_mid. Qed.
Lemma get_mid' : forall a x b i, i = length a -> get (a ++ x :: b) i = Some x.
Proof. intros; subst; apply get_mid. Qed.

Lemma split_at : forall (A : Type) (l : list A) n, n <= length l -> exists a b, l = a ++ b /\ length a = n.
Proof.
  intros A l n H. exists (firstn n l), (skipn n l). rewrite firstn_skipn. split; auto. apply firstn_length_le; auto.
Qed.
Lemma split_last : forall (A : Type) (l : list A), l <> [] -> exists a x, l = a ++ [x].
Proof. intros A l H. destruct (exists_last H) as (a & x & ->). eauto. Qed.

Lemma repeat_S_app : forall (A : Type) (x : A) k, repeat x (S k) = repeat x k ++ [x].
Proof. intros. rewrite <- repeat_cons. reflexivity. Qed.

Section P.
Variable C : Type.
Variable u : C.
Variable M : nat.

Lemma nsiz_bounds : forall len, len + 1 <= nsiz_of len <= len + 16.
Proof. intros. unfold nsiz_of. pose proof (Nat.mod_upper_bound (len + 1 + 15) 16 ltac:(lia)). lia. Qed.

Lemma sizer_spec : forall a len, len + 16 <= M ->
  exists k, sizer M a len = Some (mkA (sl a ++ repeat None k) (Nat.max (cnt a) len)) /\ len < length (sl a) + k.
Proof.
  intros a len H. unfold sizer. pose proof (nsiz_bounds len) as B.
  destruct (Nat.leb_spec M len); [lia|]. destruct (Nat.ltb_spec M (nsiz_of len)); [lia|]. cbn [orb].
  destruct (Nat.leb_spec (length (sl a)) len).
  - exists (nsiz_of len - length (sl a)). split; [|lia]. do 2 f_equal. destruct (Nat.ltb_spec (cnt a) len); lia.
  - exists 0. split; [|lia]. cbn [repeat]. rewrite app_nil_r. do 2 f_equal. destruct (Nat.ltb_spec (cnt a) len); lia.
Qed.
(** in any case: an error, or the same *)
Lemma sizer_any : forall a len, sizer M a len = None \/
  exists k, sizer M a len = Some (mkA (sl a ++ repeat None k) (Nat.max (cnt a) len)) /\ len < length (sl a) + k.
Proof.
  intros a len. unfold sizer. pose proof (nsiz_bounds len) as B.
  destruct ((M <=? len) || (M <? nsiz_of len)); [auto|]. right.
  destruct (Nat.leb_spec (length (sl a)) len).
  - exists (nsiz_of len - length (sl a)). split; [|lia]. do 2 f_equal. destruct (Nat.ltb_spec (cnt a) len); lia.
  - exists 0. split; [|lia]. cbn [repeat]. rewrite app_nil_r. do 2 f_equal. destruct (Nat.ltb_spec (cnt a) len); lia.
Qed.

(** rep with enough room *)
Lemma rep_sizer : forall a es len, rep a es ->
  sizer M a len = None \/
  exists a' k, sizer M a len = Some a' /\ sl a' = es ++ repeat None k /\ cnt a' = Nat.max (length es) len /\ len < length es + k.
Proof.
  intros a es len (k & HS & HC). destruct (sizer_any a len) as [H|(k' & H & L)]; [auto|right].
  rewrite HS, HC in *. eexists; exists (k + k'). split; [exact H|]. cbn [sl cnt]. rewrite <- app_assoc, <- repeat_app. split; auto. split; auto.
  rewrite app_length, repeat_length in L. lia.
Qed.
Lemma rep_sizer_ok : forall a es len, rep a es -> len + 16 <= M ->
  exists a' k, sizer M a len = Some a' /\ sl a' = es ++ repeat None k /\ cnt a' = Nat.max (length es) len /\ len < length es + k.
Proof.
  intros a es len R H. destruct (rep_sizer a es len R) as [X|X]; auto. destruct (sizer_spec a len H) as (k & Y & _). congruence.
Qed.

(** ** push *)
Lemma array_set_end : forall a es v, rep a es ->
  array_set M a v (length es) = Some None \/
  exists a', array_set M a v (length es) = Some (Some a') /\ rep a' (es ++ [v]).
Proof.
  intros a es v R. unfold array_set.
  destruct (rep_sizer a es (length es + 1) R) as [H|(a1 & k & H & HS & HC & L)]; rewrite H; [auto|right].
  destruct k as [|k]; [lia|]. rewrite HS. cbn [repeat]. rewrite put_mid. cbn [cnt]. rewrite HC.
  destruct (Nat.ltb_spec (Nat.max (length es) (length es + 1)) (length es + 1)); [lia|].
  eexists. split; [reflexivity|]. exists k. cbn [sl cnt]. rewrite <- app_assoc. cbn [app]. split; auto.
  rewrite app_length. cbn. lia.
Qed.
Lemma array_set_end_ok : forall a es v, rep a es -> length es + 17 <= M ->
  exists a', array_set M a v (length es) = Some (Some a') /\ rep a' (es ++ [v]).
Proof.
  intros a es v R H. destruct (array_set_end a es v R) as [X|X]; auto. exfalso.
  unfold array_set in X. destruct (rep_sizer_ok a es (length es + 1) R ltac:(lia)) as (a1 & k & Y & HS & HC & L). rewrite Y, HS in X.
  destruct k; [lia|]. cbn [repeat] in X. rewrite put_mid in X. cbn [cnt] in X. rewrite HC in X.
  destruct (Nat.ltb_spec (Nat.max (length es) (length es + 1)) (length es + 1)); [lia|]. discriminate.
Qed.
Lemma push_loop_ok : forall args a es c0 i, rep a es -> length es = c0 + i -> length es + length args + 17 <= M ->
  exists a', push_loop M a c0 i args = Some a' /\ rep a' (es ++ args).
Proof.
  induction args as [|v args IH]; intros a es c0 i R E L; cbn [push_loop].
  - exists a. rewrite app_nil_r. auto.
  - cbn [length] in L. destruct (Nat.ltb_spec (c0 + i) M); [|lia]. rewrite <- E.
    destruct (array_set_end_ok a es v R ltac:(lia)) as (a1 & H1 & R1). rewrite H1.
    destruct (IH a1 (es ++ [v]) c0 (S i)) as (a2 & H2 & R2); auto; [rewrite app_length; cbn; lia|rewrite app_length; cbn; lia|].
    exists a2. split; auto. rewrite <- app_assoc in R2. auto.
Qed.
Lemma push_ok : forall a es args, rep a es -> length es + length args + 17 <= M ->
  exists a', push M a args = Some (a', length es + length args) /\ rep a' (es ++ args).
Proof.
  intros a es args R L. unfold push. pose proof R as (k & _ & HC). rewrite HC.
  destruct (push_loop_ok args a es (length es) 0 R ltac:(lia) L) as (a' & H & R'). rewrite H. exists a'. split; auto.
  destruct R' as (k' & _ & HC'). rewrite HC', app_length. auto.
Qed.

(** ** pop *)
Lemma pop_ok : forall a es v, rep a (es ++ [v]) -> exists a', pop a = Some (a', v) /\ rep a' es.
Proof.
  intros a es v (k & HS & HC). unfold pop. rewrite HC, app_length. cbn [length].
  destruct (Nat.eqb_spec (length es + 1) 0); [lia|]. rewrite Nat.add_sub, HS, <- app_assoc. cbn [app]. rewrite get_mid.
  destruct v as [p|].
  - rewrite put_mid. unfold set_length. cbn [sl]. rewrite app_length.
    match goal with |- context [?a <=? ?b] => destruct (Nat.leb_spec a b); [|cbn [length] in *; lia] end.
    eexists; split; [reflexivity|]. exists (S k). cbn [sl cnt repeat]. auto.
  - unfold set_length. cbn [sl]. rewrite HS, <- app_assoc. cbn [app]. rewrite app_length.
    match goal with |- context [?a <=? ?b] => destruct (Nat.leb_spec a b); [|cbn [length] in *; lia] end.
    eexists; split; [reflexivity|]. exists (S k). cbn [sl cnt repeat]. auto.
Qed.
Lemma pop_nil : forall a, rep a [] -> pop a = Some (a, None).
Proof. intros a (k & HS & HC). unfold pop. rewrite HC. reflexivity. Qed.

(** ** shift *)
Lemma skipn_all_but : forall (A : Type) (l : list A) x r, exists y, skipn (length l) (x :: l ++ r) = y :: r.
Proof.
  intros A l. induction l as [|z l IH] using rev_ind; intros x r; [cbn; eauto|].
  exists z. rewrite app_length, Nat.add_1_r, <- app_assoc. cbn [skipn app]. rewrite skipn_app, skipn_all, Nat.sub_diag. reflexivity.
Qed.
Lemma shift_ok : forall h a es v, rep a (v :: es) ->
  match v with
  | Some p => exists a', shift C u h a = Some (h ++ [rd C u h p], a', Some (length h)) /\ rep a' es
  | None => exists a', shift C u h a = Some (h, a', None) /\ rep a' (es ++ [None])
  end.
Proof.
  intros h a es v (k & HS & HC).
  assert (MM : memmove (sl a) 0 1 (length es) = Some (es ++ skipn (length es) (v :: es ++ repeat None k))).
  { rewrite HS. unfold memmove. cbn [length app].
    repeat match goal with |- context [?a <=? ?b] => destruct (Nat.leb_spec a b); [|rewrite app_length in *; lia] end. cbn [andb firstn app Nat.add].
    change (skipn 1 (v :: es ++ repeat None k)) with (es ++ repeat None k).
    rewrite firstn_app, firstn_all, Nat.sub_diag, firstn_O, app_nil_r. reflexivity. }
  destruct (skipn_all_but _ es v (repeat None k)) as (y & EY). rewrite EY in MM.
  unfold shift. rewrite HC. cbn [length]. destruct (Nat.eqb_spec (S (length es)) 0); [lia|].
  replace (S (length es) - 1) with (length es) by lia. rewrite MM, put_mid.
  assert (G : get (sl a) 0 = Some v) by (rewrite HS; reflexivity). rewrite G.
  destruct v as [p|].
  - unfold dup. unfold set_length. cbn [sl]. rewrite app_length.
    match goal with |- context [?a <=? ?b] => destruct (Nat.leb_spec a b); [|cbn [length] in *; lia] end.
    eexists; split; [reflexivity|]. exists (S k). auto.
  - eexists; split; [reflexivity|]. exists k. cbn [sl cnt]. rewrite <- app_assoc, app_length. cbn [app length]. split; auto. lia.
Qed.
Lemma shift_nil : forall h a, rep a [] -> shift C u h a = Some (h, a, None).
Proof. intros h a (k & HS & HC). unfold shift. rewrite HC. reflexivity. Qed.

(** ** unshift *)
Lemma put_all_ok : forall vs a old b, length old = length vs -> put_all (a ++ old ++ b) (length a) vs = Some (a ++ vs ++ b).
Proof.
  induction vs as [|v vs IH]; intros a old b L; [destruct old; [reflexivity|discriminate]|].
  destruct old as [|x old]; [discriminate|]. cbn [put_all app]. rewrite put_mid.
  change (a ++ v :: old ++ b) with (a ++ [v] ++ old ++ b). rewrite app_assoc.
  replace (S (length a)) with (length (a ++ [v])) by (rewrite app_length; cbn; lia).
  rewrite IH by (cbn in L; lia). rewrite <- app_assoc. reflexivity.
Qed.
Lemma unshift_any : forall a es args, rep a es -> args <> [] ->
  unshift C M a args = Some (Failed a []) \/
  exists a', unshift C M a args = Some (Done (a', length args + length es)) /\ rep a' (args ++ es).
Proof.
  intros a es args R NE. pose proof R as (k0 & _ & HC). unfold unshift.
  destruct (Nat.eqb_spec (length args) 0) as [E|E]; [apply length_zero_iff_nil in E; congruence|].
  rewrite HC. destruct (rep_sizer a es (length es + length args) R) as [H|(a1 & k & H & HS & HC1 & L)]; rewrite H; [auto|right].
  rewrite HS. unfold memmove. rewrite app_length, repeat_length.
  destruct (Nat.leb_spec (0 + length es) (length es + k)); [|lia].
  destruct (Nat.leb_spec (length args + length es) (length es + k)); [|lia]. cbn [andb].
  assert (L2 : length args <= length (es ++ repeat (@None nat) k)) by (rewrite app_length, repeat_length; lia).
  assert (X : exists old, firstn (length args) (es ++ repeat None k) = old /\ length old = length args).
  { eexists; split; [reflexivity|]. apply firstn_length_le; auto. }
  destruct X as (old & -> & Lo). cbn [skipn]. rewrite firstn_app, firstn_all, Nat.sub_diag, firstn_O, app_nil_r.
  pose proof (put_all_ok args [] old (es ++ skipn (length args + length es) (es ++ repeat None k)) Lo) as P. cbn [app length] in P. rewrite P.
  rewrite skipn_app, (skipn_all2 es) by lia. cbn [app]. replace (length args + length es - length es) with (length args) by lia.
  assert (SK : skipn (length args) (repeat (@None nat) k) = repeat None (k - length args)).
  { clear. revert k. induction (length args); intros [|k]; cbn [skipn repeat Nat.sub]; auto. }
  rewrite SK. unfold set_length. cbn [sl]. rewrite !app_length, repeat_length.
  match goal with |- context [?a <=? ?b] => destruct (Nat.leb_spec a b); [|lia] end.
  eexists; split; [cbn [cnt]; do 3 f_equal; lia|]. exists (k - length args). cbn [sl cnt]. rewrite <- app_assoc, app_length. split; auto. lia.
Qed.
Lemma unshift_ok : forall a es args, rep a es -> args <> [] -> length es + length args + 16 <= M ->
  exists a', unshift C M a args = Some (Done (a', length args + length es)) /\ rep a' (args ++ es).
Proof.
  intros a es args R NE L. destruct (unshift_any a es args R NE) as [X|X]; auto. exfalso.
  pose proof R as (k0 & _ & HC). unfold unshift in X.
  destruct (Nat.eqb_spec (length args) 0) as [E|E]; [apply length_zero_iff_nil in E; congruence|].
  rewrite HC in X. destruct (rep_sizer_ok a es (length es + length args) R ltac:(lia)) as (a1 & k & H & HS & HC1 & LL). rewrite H in X.
  repeat match type of X with match ?e with _ => _ end = _ => destruct e; try discriminate end.
Qed.

(** ** reverse *)
Lemma rev_loop_ok : forall m mid a b, m = Nat.div2 (length mid) ->
  rev_loop m (length a) (length a + length mid - 1) (a ++ mid ++ b) = Some (a ++ rev mid ++ b).
Proof.
  induction m as [|m IH]; intros mid a b E; cbn [rev_loop].
  - destruct mid as [|x [|y mid]]; [reflexivity|reflexivity|]. cbn in E. discriminate.
  - destruct mid as [|x mid]; [discriminate|]. destruct mid as [|z mid]; [discriminate|].
    destruct (split_last _ (z :: mid) ltac:(discriminate)) as (mm & y & EM). rewrite EM in *. clear EM z mid.
    cbn [app length] in *. rewrite app_length in *. cbn [length] in *.
    rewrite get_mid. rewrite <- app_assoc. cbn [app].
    replace (length a + S (length mm + 1) - 1) with (length (a ++ x :: mm)) by (rewrite app_length; cbn [length]; lia).
    replace (a ++ x :: mm ++ y :: b) with ((a ++ x :: mm) ++ y :: b) by (rewrite <- app_assoc; reflexivity).
    rewrite get_mid. replace ((a ++ x :: mm) ++ y :: b) with (a ++ x :: mm ++ y :: b) by (rewrite <- app_assoc; reflexivity).
    rewrite put_mid. replace (a ++ y :: mm ++ y :: b) with ((a ++ y :: mm) ++ y :: b) by (rewrite <- app_assoc; reflexivity).
    rewrite put_mid' by (rewrite !app_length; cbn [length]; lia).
    replace ((a ++ y :: mm) ++ x :: b) with ((a ++ [y]) ++ mm ++ (x :: b)) by (rewrite <- !app_assoc; reflexivity).
    replace (S (length a)) with (length (a ++ [y])) by (rewrite app_length; cbn; lia).
    replace (length (a ++ x :: mm) - 1) with (length (a ++ [y]) + length mm - 1) by (rewrite !app_length; cbn [length]; lia).
    rewrite IH.
    + cbn [rev]. rewrite rev_app_distr. cbn [rev app]. rewrite <- !app_assoc. reflexivity.
    + rewrite Nat.add_1_r in E. cbn [Nat.div2] in E. congruence.
Qed.
Lemma reverse_ok : forall a es, rep a es -> exists a', reverse a = Some a' /\ rep a' (rev es).
Proof.
  intros a es (k & HS & HC). unfold reverse. rewrite HS, HC.
  pose proof (rev_loop_ok (Nat.div2 (length es)) es [] (repeat None k) eq_refl) as P. cbn [app length Nat.add] in P. rewrite P.
  eexists; split; [reflexivity|]. exists k. cbn [sl cnt]. rewrite rev_length. auto.
Qed.

(** ** splice *)
Lemma take_loop_ok : forall vs a b r1 r2, 
  take_loop (length vs) (length a) (length r1) (a ++ vs ++ b) (r1 ++ repeat None (length vs) ++ r2) =
  Some (a ++ repeat None (length vs) ++ b, r1 ++ vs ++ r2).
Proof.
  induction vs as [|v vs IH]; intros a b r1 r2; [reflexivity|]. cbn [length take_loop app repeat]. rewrite get_mid.
  destruct v as [p|].
  - rewrite !put_mid.
    replace (a ++ None :: vs ++ b) with ((a ++ [None]) ++ vs ++ b) by (rewrite <- app_assoc; reflexivity).
    replace (r1 ++ Some p :: repeat None (length vs) ++ r2) with ((r1 ++ [Some p]) ++ repeat None (length vs) ++ r2) by (rewrite <- app_assoc; reflexivity).
    replace (S (length a)) with (length (a ++ [@None nat])) by (rewrite app_length; cbn; lia).
    replace (S (length r1)) with (length (r1 ++ [Some p])) by (rewrite app_length; cbn; lia).
    rewrite IH. rewrite <- !app_assoc. reflexivity.
  - replace (a ++ None :: vs ++ b) with ((a ++ [None]) ++ vs ++ b) by (rewrite <- app_assoc; reflexivity).
    replace (r1 ++ None :: repeat None (length vs) ++ r2) with ((r1 ++ [None]) ++ repeat None (length vs) ++ r2) by (rewrite <- app_assoc; reflexivity).
    replace (S (length a)) with (length (a ++ [@None nat])) by (rewrite app_length; cbn; lia).
    replace (S (length r1)) with (length (r1 ++ [@None nat])) by (rewrite app_length; cbn; lia).
    rewrite IH. rewrite <- !app_assoc. reflexivity.
Qed.
Lemma down_loop_ok : forall vs a d b, 0 < d ->
  down_loop (length vs) (length a + d) d (a ++ repeat None d ++ vs ++ b) = Some (a ++ vs ++ repeat None d ++ b).
Proof.
  induction vs as [|v vs IH]; intros a d b Hd; [reflexivity|]. cbn [length down_loop app].
  replace (a ++ repeat None d ++ v :: vs ++ b) with ((a ++ repeat None d) ++ v :: vs ++ b) by (rewrite <- app_assoc; reflexivity).
  rewrite get_mid' by (rewrite app_length, repeat_length; auto). rewrite Nat.add_sub.
  destruct d as [|d]; [lia|]. cbn [repeat].
  replace ((a ++ None :: repeat None d) ++ v :: vs ++ b) with (a ++ None :: (repeat None d ++ v :: vs ++ b)) by (rewrite <- app_assoc; reflexivity).
  rewrite put_mid.
  replace (a ++ v :: (repeat None d ++ v :: vs ++ b)) with ((a ++ v :: repeat None d) ++ v :: vs ++ b) by (rewrite <- app_assoc; reflexivity).
  rewrite put_mid' by (rewrite app_length; cbn [length]; rewrite repeat_length; lia).
  replace ((a ++ v :: repeat None d) ++ None :: vs ++ b) with ((a ++ [v]) ++ repeat None (S d) ++ vs ++ b)
    by (rewrite repeat_S_app, <- !app_assoc; reflexivity).
  replace (S (length a + S d)) with (length (a ++ [v]) + S d) by (rewrite app_length; cbn; lia).
  rewrite IH by lia. rewrite <- !app_assoc. reflexivity.
Qed.
Lemma up_loop_ok : forall vs a d b, 0 < d ->
  up_loop (length vs) (length a) d (a ++ vs ++ repeat None d ++ b) = Some (a ++ repeat None d ++ vs ++ b).
Proof.
  induction vs as [|v vs IH] using rev_ind; intros a d b Hd; [reflexivity|].
  rewrite app_length, Nat.add_1_r. cbn [length up_loop].
  rewrite <- !app_assoc. cbn [app].
  replace (a ++ vs ++ v :: repeat None d ++ b) with ((a ++ vs) ++ v :: repeat None d ++ b) by (rewrite <- app_assoc; reflexivity).
  rewrite get_mid' by (rewrite app_length; auto).
  destruct d as [|d]; [lia|]. rewrite repeat_S_app.
  replace ((a ++ vs) ++ v :: (repeat None d ++ [None]) ++ b) with (((a ++ vs) ++ v :: repeat None d) ++ None :: b) by (rewrite <- !app_assoc; reflexivity).
  rewrite put_mid' by (rewrite !app_length; cbn [length]; rewrite repeat_length; lia).
  replace (((a ++ vs) ++ v :: repeat None d) ++ v :: b) with ((a ++ vs) ++ v :: (repeat None d ++ v :: b)) by (rewrite <- !app_assoc; reflexivity).
  rewrite put_mid' by (rewrite app_length; auto).
  replace ((a ++ vs) ++ None :: (repeat None d ++ v :: b)) with (a ++ vs ++ repeat None (S d) ++ (v :: b)) by (rewrite <- !app_assoc; reflexivity).
  rewrite IH by lia. rewrite repeat_S_app, <- !app_assoc. reflexivity.
Qed.
Lemma ins_loop_ok : forall ps h a old b, length old = length ps -> Forall (fun p => p < length h) ps ->
  ins_loop C u h (a ++ old ++ b) (length a) ps =
  Some (h ++ map (rd C u h) ps, a ++ map Some (seq (length h) (length ps)) ++ b).
Proof.
  induction ps as [|p ps IH]; intros h a old b L F; [destruct old; [|discriminate]; cbn; rewrite app_nil_r; reflexivity|].
  destruct old as [|x old]; [discriminate|]. cbn [ins_loop app dup]. rewrite put_mid. inversion F as [|? ? Hp Hps]; subst.
  change (a ++ Some (length h) :: old ++ b) with (a ++ [Some (length h)] ++ old ++ b). rewrite app_assoc.
  replace (S (length a)) with (length (a ++ [Some (length h)])) by (rewrite app_length; cbn; lia).
  rewrite IH.
  - f_equal. f_equal.
    + rewrite <- app_assoc. cbn [map app]. do 2 f_equal. apply map_ext_in. intros q Hq. rewrite Forall_forall in Hps. specialize (Hps _ Hq).
      unfold rd. rewrite app_nth1 by auto. reflexivity.
    + rewrite app_length. cbn [length seq map]. rewrite <- app_assoc. cbn [app]. rewrite Nat.add_1_r. reflexivity.
  - cbn in L; lia.
  - eapply Forall_impl; [|exact Hps]. intros q Hq. rewrite app_length. cbv beta in Hq. lia.
Qed.
End P.
