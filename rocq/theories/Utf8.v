(** Byte offsets.  The model keeps a text as its code points and counts bytes with [len_utf8]
    (Text.v); here is the encoding those offsets refer to, and the facts that tie the two.
    [bytes t] is what a Rust [String] holding [t] consists of (RFC 3629). *)
From Verif Require Import Text Lines Scan.
Open Scope nat_scope.
Open Scope list_scope.

(** ** Specification *)
Definition utf8 (c : N) : list N :=
  (if c <? 128 then [c]
   else if c <? 2048 then [192 + c / 64; 128 + c mod 64]
   else if c <? 65536 then [224 + c / 4096; 128 + (c / 64) mod 64; 128 + c mod 64]
   else [240 + c / 262144; 128 + (c / 4096) mod 64; 128 + (c / 64) mod 64; 128 + c mod 64])%N.
Definition bytes (t : text) : list N := flat_map utf8 t.

(** [str::is_char_boundary]: the end, or a byte that does not continue a character. *)
Definition continues (b : N) : Prop := (128 <= b < 192)%N.
Definition char_boundary (l : list N) (o : nat) : Prop :=
  o <= length l /\ forall b, nth_error l o = Some b -> ~ continues b.

(** ** Facts *)
Lemma utf8_length c : length (utf8 c) = len_utf8 c.
Proof. unfold utf8, len_utf8. destruct (c <? 128)%N, (c <? 2048)%N, (c <? 65536)%N; reflexivity. Qed.

Lemma bytes_app a b : bytes (a ++ b) = bytes a ++ bytes b.
Proof. apply flat_map_app. Qed.

Lemma byte_len_bytes t : byte_len t = length (bytes t).
Proof.
  induction t as [|c t IH]; [reflexivity|]. change (bytes (c :: t)) with (utf8 c ++ bytes t).
  rewrite app_length, utf8_length, <- IH. reflexivity.
Qed.

(** The first byte of a character does not continue one, the others do. *)
Lemma utf8_lead c : exists b r, utf8 c = b :: r /\ ~ continues b /\ Forall continues r.
Proof.
  unfold utf8, continues.
  assert (M : forall x, (128 <= 128 + x mod 64 < 192)%N).
  { intros x. pose proof (N.mod_lt x 64 ltac:(discriminate)) as H. revert H. generalize (x mod 64)%N. intros y H.
    split; [|apply (N.add_lt_mono_l y 64 128); exact H]. apply N.le_add_r. }
  destruct (c <? 128)%N eqn:E1; [|destruct (c <? 2048)%N eqn:E2; [|destruct (c <? 65536)%N eqn:E3]];
    do 2 eexists; (split; [reflexivity|]); (split; [|repeat constructor; apply M]).
  - apply N.ltb_lt in E1. lia.
  - generalize (c / 64)%N. intros y [_ H]. revert H. apply N.le_ngt. transitivity 192%N; [discriminate|apply N.le_add_r].
  - generalize (c / 4096)%N. intros y [_ H]. revert H. apply N.le_ngt. transitivity 224%N; [discriminate|apply N.le_add_r].
  - generalize (c / 262144)%N. intros y [_ H]. revert H. apply N.le_ngt. transitivity 240%N; [discriminate|apply N.le_add_r].
Qed.

Lemma boundary_bytes pre suf : char_boundary (bytes (pre ++ suf)) (byte_len pre).
Proof.
  rewrite bytes_app, byte_len_bytes. split; [rewrite app_length; lia|].
  intros b H. rewrite nth_error_app2 in H by lia. rewrite Nat.sub_diag in H.
  destruct suf as [|c suf]; [discriminate|]. change (bytes (c :: suf)) with (utf8 c ++ bytes suf) in H.
  destruct (utf8_lead c) as (x & r & E & Hx & _). rewrite E in H. cbn in H. congruence.
Qed.

Lemma boundary_split t : forall o, char_boundary (bytes t) o -> exists pre suf, t = pre ++ suf /\ byte_len pre = o.
Proof.
  induction t as [|c t IH]; intros o [H1 H2].
  - cbn in H1. exists [], []. split; [reflexivity|]. cbn. lia.
  - destruct o as [|o]; [exists [], (c :: t); auto|].
    change (bytes (c :: t)) with (utf8 c ++ bytes t) in *. rewrite app_length, utf8_length in H1.
    destruct (Nat.le_gt_cases (len_utf8 c) (S o)) as [L|L].
    + destruct (IH (S o - len_utf8 c)) as (pre & suf & -> & E).
      * split; [lia|]. intros b Hb. apply H2. rewrite nth_error_app2; rewrite utf8_length; auto.
      * exists (c :: pre), suf. split; [reflexivity|]. cbn [byte_len]. lia.
    + exfalso. destruct (utf8_lead c) as (b & r & E & _ & F). rewrite <- utf8_length, E in L. cbn in L.
      destruct (nth_error r o) as [x|] eqn:X.
      * apply (H2 x); [rewrite E; cbn; rewrite nth_error_app1 by lia; exact X|].
        rewrite Forall_forall in F. apply F. eapply nth_error_In; eauto.
      * apply nth_error_None in X. lia.
Qed.

Lemma slice_bytes t a b w : slice t a b = Some w ->
  a <= b <= length (bytes t) /\ bytes w = firstn (b - a) (skipn a (bytes t)).
Proof.
  intros H. unfold slice in H. destruct (b <? a) eqn:L; [discriminate|]. apply Nat.ltb_ge in L.
  destruct (drop_bytes a t) as [t'|] eqn:D; [|discriminate].
  apply drop_bytes_inv in D as (pre & -> & <-). apply take_bytes_inv in H as (suf & -> & Hw).
  rewrite !bytes_app, !app_length, <- !byte_len_bytes. split; [lia|].
  rewrite byte_len_bytes, skipn_app, skipn_all, Nat.sub_diag. cbn [app skipn].
  rewrite <- (byte_len_bytes pre), <- Hw, byte_len_bytes, firstn_app, firstn_all, Nat.sub_diag. cbn. now rewrite app_nil_r.
Qed.

Lemma slice_some t a b : a <= b -> char_boundary (bytes t) a -> char_boundary (bytes t) b ->
  exists w, slice t a b = Some w.
Proof.
  intros L Ha Hb. destruct (boundary_split _ _ Ha) as (p & s & -> & <-).
  destruct (boundary_split _ _ Hb) as (p' & s' & E & <-).
  destruct (prefix_split p s p' s' E L) as [x ->]. rewrite E, <- app_assoc.
  exists x. rewrite byte_len_app. apply slice_app.
Qed.
