(** JSON.parse(JSON.stringify(v)): the tokenizer on the text that stringify writes. *)
From Coq Require Import ZArith List Bool Lia.
From Verif Require Import Bits UtfModel UtfSpec UtfProofs CodecModel TreeModel TreeSpec JsonModel JsonSpec JsonProofs JsonProofs2 NumJson.
From Verif Require NumModel NumSpec.
Import ListNotations.
Local Open Scope Z_scope.

(** The option dblPrec *)
Definition prec := Z.
Existing Class prec.
Section Prec.
Context {dp : prec}.

(** ** The text of a value, without the depth limit *)
Fixpoint cat (first : bool) (l : list (list Z)) : list Z :=
  match l with [] => [] | t :: r => (if first then [] else [44; 32]) ++ t ++ cat false r end.
Fixpoint txt (v : jval) : list Z :=
  match v with
  | JUndef => s_undefined
  | JNull => s_null
  | JBool true => s_true
  | JBool false => s_false
  | JNum x => NumModel.num_to_json dp x
  | JStr s => json_string s
  | JArr [] => [91; 93]
  | JArr l => 91 :: 32 :: cat true (map txt l) ++ [32; 93]
  | JObj [] => [123; 125]
  | JObj l => 123 :: 32 :: cat true (map (fun kv => 34 :: fst kv ++ 34 :: 58 :: txt (snd kv)) l) ++ [32; 125]
  end.

Section JInd.
  Variable P : jval -> Prop.
  Hypothesis Hu : P JUndef.
  Hypothesis Hn : P JNull.
  Hypothesis Hb : forall b, P (JBool b).
  Hypothesis Hz : forall n, P (JNum n).
  Hypothesis Hs : forall str, P (JStr str).
  Hypothesis Ha : forall l, Forall P l -> P (JArr l).
  Hypothesis Ho : forall l, Forall (fun kv => P (snd kv)) l -> P (JObj l).
  Fixpoint jval_ind' (v : jval) : P v :=
    match v with
    | JUndef => Hu | JNull => Hn | JBool b => Hb b | JNum n => Hz n | JStr s => Hs s
    | JArr l => Ha l ((fix go l : Forall P l := match l with [] => Forall_nil _ | v :: r => Forall_cons v (jval_ind' v) (go r) end) l)
    | JObj l => Ho l ((fix go l : Forall (fun kv => P (snd kv)) l :=
        match l with [] => Forall_nil _ | kv :: r => Forall_cons kv (jval_ind' (snd kv)) (go r) end) l)
    end.
End JInd.

Lemma ok_arr_inv : forall M l, json_tree dp M (JArr l) -> Forall (json_tree dp M) l /\ (length l + 18 <= M)%nat.
Proof. intros M l H; inversion H; auto. Qed.
Lemma ok_obj_inv : forall M l, json_tree dp M (JObj l) -> Forall (fun kv => plain_key (fst kv)) l /\
  Forall (fun kv => json_tree dp M (snd kv)) l.
Proof. intros M l H; inversion H; auto. Qed.

Definition str_elems (md d : Z) :=
  fix elems (first : bool) (l : list jval) :=
    match l with
    | [] => Some []
    | v :: r =>
        match stringify dp md (d + 1) v with
        | None => None
        | Some t => option_map (fun b => (if first then [] else [44; 32]) ++ t ++ b) (elems false r)
        end
    end.
Definition str_fields (md d : Z) :=
  fix fields (subcnt : Z) (l : list (list Z * jval)) :=
    match l with
    | [] => Some []
    | (k, v) :: r =>
        match v with
        | JUndef => fields (subcnt + 1) r
        | _ =>
            match stringify dp md (d + 1) v with
            | None => None
            | Some t =>
                option_map (fun b => (if 1 <? subcnt + 1 then [44; 32] else []) ++ 34 :: k ++ 34 :: 58 :: t ++ b)
                  (fields (subcnt + 1) r)
            end
        end
    end.
Lemma stringify_arr : forall md d v l, stringify dp md d (JArr (v :: l)) =
  if (0 <? md) && (md <? d) then None else option_map (fun b => 91 :: 32 :: b ++ [32; 93]) (str_elems md d true (v :: l)).
Proof. reflexivity. Qed.
Lemma stringify_obj : forall md d v l, stringify dp md d (JObj (v :: l)) =
  if (0 <? md) && (md <? d) then None else option_map (fun b => 123 :: 32 :: b ++ [32; 125]) (str_fields md d 0 (v :: l)).
Proof. reflexivity. Qed.

Lemma stringify_txt : forall M md v, json_tree dp M v -> forall d, 0 <= d -> (md <= 0 \/ d + depth v <= md) ->
  stringify dp md d v = Some (txt v).
Proof.
  intros M md v. induction v using jval_ind'; intros OK d Hd HD.
  1-5: cbn [depth] in HD; unfold stringify; fold stringify;
    (destruct ((0 <? md) && (md <? d)) eqn:X; [apply andb_true_iff in X as [? ?]; b2p; lia|]); clear X;
    cbn [txt]; auto; try (destruct b; auto; fail); fail.
  - apply ok_arr_inv in OK as [OK _].
    assert (X : (0 <? md) && (md <? d) = false).
    { assert (0 <= depth (JArr l)). { cbn [depth]. clear. induction l; cbn [fold_right]; lia. }
      destruct ((0 <? md) && (md <? d)) eqn:X; auto. apply andb_true_iff in X as [? ?]; b2p. lia. }
    destruct l as [|v l]; [cbn [stringify]; rewrite X; reflexivity|]. rewrite stringify_arr, X.
    change (txt (JArr (v :: l))) with (91 :: 32 :: cat true (map txt (v :: l)) ++ [32; 93]).
    assert (G : forall l, Forall (fun v => json_tree dp M v -> forall d, 0 <= d -> md <= 0 \/ d + depth v <= md -> stringify dp md d v = Some (txt v)) l ->
       Forall (json_tree dp M) l -> (md <= 0 \/ d + depth (JArr l) <= md) -> forall first, str_elems md d first l = Some (cat first (map txt l))).
    { clear v l H OK HD X. induction l as [|v l IHl]; intros HP HO HD first; [reflexivity|].
      inversion HP; subst. inversion HO; subst. cbn [depth fold_right] in HD. cbn [depth] in IHl.
      cbn [str_elems]. rewrite H1 by (auto; lia). fold (str_elems md d). rewrite IHl by (auto; lia). reflexivity. }
    rewrite G by auto. reflexivity.
  - apply ok_obj_inv in OK as (_ & OK).
    assert (X : (0 <? md) && (md <? d) = false).
    { assert (0 <= depth (JObj l)). { cbn [depth]. clear. induction l; cbn [fold_right]; lia. }
      destruct ((0 <? md) && (md <? d)) eqn:X; auto. apply andb_true_iff in X as [? ?]; b2p. lia. }
    destruct l as [|v l]; [cbn [stringify]; rewrite X; reflexivity|]. rewrite stringify_obj, X.
    change (txt (JObj (v :: l))) with (123 :: 32 :: cat true (map (fun kv => 34 :: fst kv ++ 34 :: 58 :: txt (snd kv)) (v :: l)) ++ [32; 125]).
    assert (G : forall l, Forall (fun kv => json_tree dp M (snd kv) -> forall d, 0 <= d -> md <= 0 \/ d + depth (snd kv) <= md -> stringify dp md d (snd kv) = Some (txt (snd kv))) l ->
       Forall (fun kv => json_tree dp M (snd kv)) l -> (md <= 0 \/ d + depth (JObj l) <= md) -> forall n, 0 <= n -> str_fields md d n l = Some (cat (n =? 0) (map (fun kv => 34 :: fst kv ++ 34 :: 58 :: txt (snd kv)) l))).
    { clear v l H OK HD X. induction l as [|[k v] l IHl]; intros HP HO HD n Hn; [reflexivity|].
      inversion HP; subst. inversion HO; subst. cbn [depth fold_right snd] in HD. cbn [depth] in IHl. cbn [fst snd] in *.
      assert (NU : v <> JUndef) by (intros ->; inversion H3).
      cbn [str_fields]. fold (str_fields md d). rewrite H1 by (auto; lia). rewrite IHl by (auto; lia).
      assert (E1 : (n + 1 =? 0) = false) by (apply Z.eqb_neq; lia).
      assert (E2 : (if 1 <? n + 1 then [44; 32] else []) = (if n =? 0 then [] else [44; 32])).
      { destruct (1 <? n + 1) eqn:Y1, (n =? 0) eqn:Y2; b2p; auto; lia. }
      rewrite E1, E2. destruct v; try congruence; cbn [map cat fst snd option_map app]; rewrite <- ?app_assoc; reflexivity. }
    rewrite G by (auto; lia). reflexivity.
Qed.

(** ** The tokens of a value whose text starts at offset [off] and whose first token has index [b] *)
Definition lenZ {A} (l : list A) : Z := Z.of_nat (length l).
Fixpoint ptoks (v : jval) (b : nat) (par : Z) (off : Z) {struct v} : list tok :=
  match v with
  | JStr s => [mkTok Str (off + 1) (off + lenZ (txt v) - 1) 0 par]
  | JArr l =>
      mkTok Arr off (off + lenZ (txt v)) (lenZ l) par ::
      (fix go (first : bool) (l : list jval) (b' : nat) (o : Z) :=
         match l with
         | [] => []
         | v :: r =>
             let o := o + (if first then 0 else 2) in
             let ts := ptoks v b' (Z.of_nat b) o in
             ts ++ go false r (b' + length ts)%nat (o + lenZ (txt v))
         end) true l (S b) (off + 2)
  | JObj l =>
      mkTok Obj off (off + lenZ (txt v)) (2 * lenZ l) par ::
      (fix go (first : bool) (l : list (list Z * jval)) (b' : nat) (o : Z) :=
         match l with
         | [] => []
         | (k, v) :: r =>
             let o := o + (if first then 0 else 2) in
             let kt := mkTok Str (o + 1) (o + 1 + lenZ k) 0 (Z.of_nat b) in
             let ts := ptoks v (S b') (Z.of_nat b) (o + lenZ k + 3) in
             kt :: ts ++ go false r (S b' + length ts)%nat (o + lenZ k + 3 + lenZ (txt v))
         end) true l (S b) (off + 2)
  | _ => [mkTok Prim off (off + lenZ (txt v)) 0 par]
  end.
Definition arr_kids (b : nat) :=
  fix go (first : bool) (l : list jval) (b' : nat) (o : Z) :=
     match l with
     | [] => []
     | v :: r =>
         let o := o + (if first then 0 else 2) in
         let ts := ptoks v b' (Z.of_nat b) o in
         ts ++ go false r (b' + length ts)%nat (o + lenZ (txt v))
     end.
Definition obj_kids (b : nat) :=
  fix go (first : bool) (l : list (list Z * jval)) (b' : nat) (o : Z) :=
     match l with
     | [] => []
     | (k, v) :: r =>
         let o := o + (if first then 0 else 2) in
         let kt := mkTok Str (o + 1) (o + 1 + lenZ k) 0 (Z.of_nat b) in
         let ts := ptoks v (S b') (Z.of_nat b) (o + lenZ k + 3) in
         kt :: ts ++ go false r (S b' + length ts)%nat (o + lenZ k + 3 + lenZ (txt v))
     end.
Lemma ptoks_arr : forall l b par off, ptoks (JArr l) b par off =
  mkTok Arr off (off + lenZ (txt (JArr l))) (lenZ l) par :: arr_kids b true l (S b) (off + 2).
Proof. reflexivity. Qed.
Lemma ptoks_obj : forall l b par off, ptoks (JObj l) b par off =
  mkTok Obj off (off + lenZ (txt (JObj l))) (2 * lenZ l) par :: obj_kids b true l (S b) (off + 2).
Proof. reflexivity. Qed.

Lemma ptoks_closed : forall v b par off, 0 <= off -> Forall (fun t => is_open t = false) (ptoks v b par off).
Proof.
  assert (CL : forall ty s e z p, 0 <= e -> is_open (mkTok ty s e z p) = false).
  { intros. unfold is_open. cbn [tst ten]. destruct (e =? -1) eqn:X; [b2p; lia|]. apply andb_false_r. }
  intros v. induction v using jval_ind'; intros b0 par off Ho.
  1-5: try (cbn [ptoks]; constructor; [apply CL; unfold lenZ; lia|constructor]).
  - cbn [ptoks]. constructor; [|constructor]. apply CL. unfold lenZ. cbn [txt json_string length].
    rewrite app_length. cbn [length]. lia.
  - rewrite ptoks_arr. constructor; [apply CL; unfold lenZ; lia|].
    assert (forall l first b' o, Forall (fun v => forall b par off, 0 <= off -> Forall (fun t => is_open t = false) (ptoks v b par off)) l ->
      0 <= o -> Forall (fun t => is_open t = false) (arr_kids b0 first l b' o)).
    { clear. induction l; intros; cbn [arr_kids]; auto. inversion H; subst. cbv zeta. apply Forall_app.
      unfold lenZ. split; [apply H3; destruct first; lia|apply IHl; auto; destruct first; lia]. }
    apply H0; auto; lia.
  - rewrite ptoks_obj. constructor; [apply CL; unfold lenZ; lia|].
    assert (forall l first b' o, Forall (fun kv => forall b par off, 0 <= off -> Forall (fun t => is_open t = false) (ptoks (snd kv) b par off)) l ->
      0 <= o -> Forall (fun t => is_open t = false) (obj_kids b0 first l b' o)).
    { clear -CL. induction l as [|[k v] l IHl]; intros; cbn [obj_kids]; auto. inversion H; subst. cbn [snd] in *. cbv zeta.
      constructor; [apply CL; unfold lenZ; destruct first; lia|]. apply Forall_app.
      unfold lenZ. split; [apply H3; destruct first; lia|apply IHl; auto; destruct first; lia]. }
    apply H0; auto; lia.
Qed.

End Prec.
