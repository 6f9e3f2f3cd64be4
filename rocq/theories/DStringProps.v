(** Property C07: dynamic strings. *)
From Coq Require Import ZArith List Bool Lia.
Import ListNotations.
From Verif Require Import Bits DStringModel DStringSpec DStringProofs.
Local Open Scope Z_scope.

(** Ways a dynamic string comes into being *)
Inductive fresh : ds -> Prop :=
| fresh_init : fresh ds_init
| fresh_var : forall n, (0 < n)%nat -> Z.of_nat n < MAX_ALLOC -> fresh (ds_var n).
Lemma fresh_wf : forall d, fresh d -> wf d [].
Proof. intros d [|n H1 H2]; [apply init_wf|apply var_wf; auto]. Qed.

(** Every history runs without a memory error, and afterwards length and bytes are those of a
    content that the operations of the history describe (see [spec_step]). *)
Theorem ds_history_content : forall d0 os, fresh d0 -> Forall op_ok os ->
  exists d c, ds_run d0 os = Some d /\ spec_run [] os c /\
    ds_length d = Z.of_nat (length c) /\ ds_bytes d = map Some c.
Proof.
  intros d0 os F H. destruct (run_ok os d0 [] (fresh_wf d0 F) H) as (d & c & E & S & W).
  exists d, c. split; [auto|]. split; [auto|]. destruct W as (W1 & W2 & _). auto.
Qed.

(** Below half the limit nothing is ever dropped: appends concatenate, truncation truncates. *)
Definition op_bytes (o : dsop) : Z :=
  match o with DAppend s | DSet s => Z.of_nat (length s) | _ => 0 end.
Definition total_bytes (os : list dsop) : Z := fold_right (fun o n => op_bytes o + n) 0 os.
Definition no_printf (o : dsop) : Prop := match o with DPrintf _ => False | _ => True end.
Definition apply_op (c : list Z) (o : dsop) : list Z :=
  match o with
  | DAppend s => c ++ s | DSetLength n => firstn (Z.to_nat n) c | DSet s => s
  | DPrintf s => c ++ s | DFree | DFreeDup => []
  end.
Lemma spec_run_small : forall os c c', spec_run c os c' -> Forall no_printf os ->
  Z.of_nat (length c) + total_bytes os + 1 < HALF_LIMIT -> c' = fold_left apply_op os c.
Proof.
  induction 1 as [|c o c1 r c2 HS HR IH]; intros HN HT; [reflexivity|].
  inversion HN as [|? ? N1 N2]; subst. cbn [total_bytes fold_right fold_left] in *. fold (total_bytes r) in *.
  assert (NN : 0 <= total_bytes r).
  { clear. induction r as [|o r IH]; simpl; [lia|]. fold (total_bytes r). destruct o; simpl; lia. }
  inversion HS; subst; cbn [op_bytes apply_op no_printf] in *; try tauto;
    rewrite ?app_length in *; try lia; apply IH; auto; rewrite ?app_length; cbn [length]; try lia.
  rewrite firstn_length. lia.
Qed.
Theorem ds_is_concatenation : forall d0 os, fresh d0 -> Forall op_ok os -> Forall no_printf os ->
  total_bytes os + 1 < HALF_LIMIT ->
  exists d, ds_run d0 os = Some d /\ let c := fold_left apply_op os [] in
    ds_length d = Z.of_nat (length c) /\ ds_bytes d = map Some c.
Proof.
  intros d0 os F H HN HT. destruct (ds_history_content d0 os F H) as (d & c & E & S & L & B).
  exists d. split; auto. rewrite <- (spec_run_small os [] c); auto.
Qed.

(** Jsi_DSFreeDup hands out exactly the content. *)
Theorem ds_freedup_returns_content : forall d0 os d c, fresh d0 -> Forall op_ok os ->
  ds_run d0 os = Some d -> ds_bytes d = map Some c ->
  exists d', ds_free_dup d = Some (d', map Some c) /\ ds_length d' = 0.
Proof.
  intros d0 os d c F H E HB. destruct (run_ok os d0 [] (fresh_wf d0 F) H) as (d1 & c1 & E1 & S & W).
  rewrite E in E1; injection E1 as <-. destruct (free_dup_ok d c1 W) as (d' & EF & W' & _).
  exists d'. pose proof W as (_ & W2 & _). rewrite <- HB, W2. split; auto. apply W'.
Qed.

(** The value is a C string: a NUL follows the content, for histories without reservations
    (Jsi_DSSetLength beyond the content) and formatted output, below half the limit. *)
Definition plain_op (o : dsop) : Prop :=
  match o with DSetLength n => n = 0 | DPrintf _ => False | _ => True end.
Lemma fresh_term : forall d, fresh d -> ds_terminated d.
Proof. intros d [|n H]; reflexivity. Qed.
Lemma step_term : forall d c o, wf d c -> plain_op o -> ds_terminated d -> size c + op_bytes o + 1 < HALF_LIMIT ->
  exists d' c', ds_step d o = Some d' /\ wf d' c' /\ ds_terminated d' /\ size c' <= size c + op_bytes o.
Proof.
  intros d c o W HO T HT. pose proof (wf_bound d c W) as (B1 & B2 & B3). pose proof (size_nonneg _ c).
  pose proof W as (L1 & _ & H3 & H4 & H6 & H5).
  assert (T0 : exists d', ds_set_length d 0 = Some (d', d_space d') /\ wf d' [] /\ ds_terminated d').
  { destruct (set_length_ok d c 0 W) as (d' & E & W1 & _ & T1 & _); [lia|]. exists d'. split; [auto|]. split; [exact W1|].
    apply T1; auto. right; right; right. lia. }
  assert (TA : forall d c s, wf d c -> size c + size s + 1 < HALF_LIMIT ->
     exists d', ds_append d s = Some d' /\ wf d' (c ++ s) /\ ds_terminated d').
  { intros e k s We Hs. destruct (append_ok e k s We) as (d' & E & [(Q1 & Q2)|(_ & Q)]); [eauto|].
    rewrite size_app in Q. lia. }
  destruct o as [s|n|s| | |s]; cbn [ds_step op_bytes plain_op] in *; try tauto.
  - destruct (TA d c s) as (d' & E & W' & T'); auto. exists d', (c ++ s). rewrite size_app. unfold size in *. repeat split; auto; try apply W'. lia.
  - subst n. destruct T0 as (d' & -> & W' & T'). exists d', []. repeat split; auto; try apply W'. unfold size in *; simpl; lia.
  - unfold ds_set. destruct T0 as (d1 & -> & W1 & T1). destruct (TA d1 [] s) as (d' & E & W' & T'); auto.
    { unfold size in *; simpl in *; lia. }
    exists d', s. repeat split; auto; try apply W'. unfold size in *; lia.
  - destruct (free_ok d c W) as (d' & -> & W1 & T1). exists d', []. repeat split; auto; try apply W1. unfold size in *; simpl; lia.
  - destruct (free_dup_ok d c W) as (d' & -> & W1 & T1). cbn [option_map fst]. exists d', []. repeat split; auto; try apply W1. unfold size in *; simpl; lia.
Qed.
Theorem ds_value_is_c_string : forall d0 os, fresh d0 -> Forall plain_op os -> total_bytes os + 1 < HALF_LIMIT ->
  exists d, ds_run d0 os = Some d /\ ds_terminated d.
Proof.
  assert (G : forall os d c, wf d c -> ds_terminated d -> Forall plain_op os -> size c + total_bytes os + 1 < HALF_LIMIT ->
    exists d', ds_run d os = Some d' /\ ds_terminated d').
  { induction os as [|o os IH]; intros d c W T H HT; [exists d; auto|].
    inversion H; subst. cbn [total_bytes fold_right] in HT. fold (total_bytes os) in HT.
    assert (NN : 0 <= total_bytes os).
    { clear. induction os as [|o r IH]; simpl; [lia|]. fold (total_bytes r). destruct o; simpl; lia. }
    destruct (step_term d c o) as (d1 & c1 & E & W1 & T1 & L1); auto; [lia|].
    cbn [ds_run]. rewrite E. apply (IH d1 c1); auto. lia. }
  intros d0 os F H HT. apply (G os d0 []); auto using fresh_wf, fresh_term.
Qed.
(** With a reservation the value of an empty string is uninitialised memory. *)
Theorem ds_reserve_not_terminated_refuted :
  exists d, ds_run ds_init [DSetLength 200] = Some d /\ ds_length d = 0 /\ ~ ds_terminated d.
Proof.
  eexists. split; [vm_compute; reflexivity|]. split; [reflexivity|]. unfold ds_terminated. vm_compute. discriminate.
Qed.

(** Formatted output.  [spare]: the bytes allocated and not in use.  After every history, text of less
    than 8192 characters is appended if less than 8192 bytes are to spare ... *)
Definition spare (d : ds) : Z := d_space d - d_len d.
Theorem ds_printf_appends : forall d0 os d c s, fresh d0 -> Forall op_ok os ->
  ds_run d0 os = Some d -> ds_bytes d = map Some c ->
  Z.of_nat (length s) < PRINTF_BUF -> spare d < PRINTF_BUF -> Z.of_nat (length (c ++ s)) + 1 < HALF_LIMIT ->
  exists d', ds_printf d s = Some d' /\ ds_bytes d' = map Some (c ++ s) /\ ds_terminated d'.
Proof.
  intros d0 os d c s F H E HB HS HA HT. destruct (run_ok os d0 [] (fresh_wf d0 F) H) as (d1 & c1 & E1 & S & W).
  rewrite E in E1; injection E1 as <-.
  assert (c1 = c) as ->.
  { pose proof W as (_ & W2 & _). rewrite W2 in HB. clear -HB. revert c HB.
    induction c1 as [ | x l IH]; intros [ | y k] HB; try discriminate HB; auto. injection HB as -> HB. f_equal. auto. }
  destruct (printf_ok d c s W) as (d' & EP & _ & _ & P). exists d'.
  destruct P as (W' & T); auto. split; [exact EP | split; [ | exact T]]. destruct W' as (_ & W' & _). exact W'.
Qed.
(** ... but longer text is dropped, on every string after every history ... *)
Theorem ds_printf_long_text_lost_refuted : forall d0 os d s, fresh d0 -> Forall op_ok os ->
  ds_run d0 os = Some d -> PRINTF_BUF <= Z.of_nat (length s) ->
  exists d', ds_printf d s = Some d' /\ ds_length d' = ds_length d /\ ds_bytes d' = ds_bytes d.
Proof.
  intros d0 os d s F H E HS. destruct (run_ok os d0 [] (fresh_wf d0 F) H) as (d1 & c1 & E1 & S & W).
  rewrite E in E1; injection E1 as <-.
  destruct (printf_ok d c1 s W) as (d' & EP & _ & P & _). specialize (P (or_intror HS)).
  exists d'. unfold ds_length. destruct W as (-> & -> & _), P as (-> & -> & _). auto.
Qed.
(** ... and so is any text on every string with 8192 bytes to spare, which a reservation makes. *)
Theorem ds_printf_roomy_lost_refuted : forall d0 os d s, fresh d0 -> Forall op_ok os ->
  ds_run d0 os = Some d -> PRINTF_BUF <= spare d ->
  exists d', ds_printf d s = Some d' /\ ds_length d' = ds_length d /\ ds_bytes d' = ds_bytes d.
Proof.
  intros d0 os d s F H E HS. destruct (run_ok os d0 [] (fresh_wf d0 F) H) as (d1 & c1 & E1 & S & W).
  rewrite E in E1; injection E1 as <-.
  destruct (printf_ok d c1 s W) as (d' & EP & _ & P & _). specialize (P (or_introl HS)).
  exists d'. unfold ds_length. destruct W as (-> & -> & _), P as (-> & -> & _). auto.
Qed.
Theorem ds_printf_roomy_reachable :
  exists d, ds_run ds_init [DSetLength 8192] = Some d /\ PRINTF_BUF <= spare d.
Proof.
  destruct (set_length_ok ds_init [] 8192 init_wf) as (d & E & W & SP & _); [lia|].
  rewrite firstn_nil in W. cbv zeta in SP. exists d. split; [cbn [ds_run ds_step]; rewrite E; reflexivity|].
  unfold spare. rewrite SP. destruct W as (-> & _). unfold PRINTF_BUF, MAX_ALLOC, size. cbn. lia.
Qed.
Example ds_printf_ex : exists d, ds_run ds_init [DAppend [1;2]; DPrintf [3;4]; DSetLength 3; DPrintf [5]] = Some d /\
  ds_bytes d = [Some 1; Some 2; Some 3; Some 5] /\ spare d < PRINTF_BUF.
Proof. eexists. split; [vm_compute; reflexivity|]. split; [vm_compute; reflexivity | reflexivity]. Qed.
Example ds_ex : exists d, ds_run ds_init [DAppend [1;2;3]; DSetLength 2; DAppend [4]] = Some d /\
  ds_bytes d = [Some 1; Some 2; Some 4].
Proof. eexists. split; vm_compute; reflexivity. Qed.
(** Growth from the static to the heap buffer really happens in the histories covered. *)
Example ds_ex_grow : exists d, ds_run ds_init [DAppend (repeat 7 150); DAppend (repeat 8 150)] = Some d /\
  d_heap d <> None /\ ds_bytes d = map Some (repeat 7 150 ++ repeat 8 150).
Proof. eexists. split; [vm_compute; reflexivity|]. split; [discriminate|vm_compute; reflexivity]. Qed.
