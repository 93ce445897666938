(** * UTF-8: encoding and strict decoding are inverse (used by C50, C51) *)
From Coq Require Import ZArith.
From Verif Require Import Tac Base.

Ltac Zify.zify_post_hook ::= Z.div_mod_to_equations.

Lemma is_scalar_spec c : is_scalar c = true <-> c < 0xD800 \/ 0xE000 <= c < 0x110000.
Proof. unfold is_scalar. lia. Qed.

Lemma encode_length c : length (encode_char c) = len_utf8 c.
Proof. unfold encode_char, len_utf8. ifs; reflexivity. Qed.

Lemma encode_app a b : encode (a ++ b) = encode a ++ encode b.
Proof. apply flat_map_app. Qed.

Lemma decode_encode_char c r : is_scalar c = true ->
  decode (encode_char c ++ r) = option_map (cons c) (decode r).
Proof.
  rewrite is_scalar_spec. intro H. unfold encode_char.
  destruct (c <? 0x80) eqn:A; [cbn [app decode]; rewrite A; reflexivity|].
  destruct (c <? 0x800) eqn:B.
  { cbn [app decode].
    replace (0xC0 + c / 64 <? 0x80) with false by lia.
    replace (0xC0 + c / 64 <? 0xC0) with false by lia.
    replace (0xC0 + c / 64 <? 0xE0) with true by lia.
    replace ((0xC0 + c / 64 - 0xC0) * 64 + (0x80 + c mod 64 - 0x80)) with c by lia.
    unfold is_cont. replace (_ && _) with true by lia. reflexivity. }
  destruct (c <? 0x10000) eqn:C.
  { cbn [app decode].
    replace (0xE0 + c / 4096 <? 0x80) with false by lia.
    replace (0xE0 + c / 4096 <? 0xC0) with false by lia.
    replace (0xE0 + c / 4096 <? 0xE0) with false by lia.
    replace (0xE0 + c / 4096 <? 0xF0) with true by lia.
    replace ((0xE0 + c / 4096 - 0xE0) * 4096 + (0x80 + c / 64 mod 64 - 0x80) * 64
             + (0x80 + c mod 64 - 0x80)) with c by lia.
    unfold is_cont, is_scalar. replace (_ && _) with true by lia. reflexivity. }
  cbn [app decode].
  replace (0xF0 + c / 262144 <? 0x80) with false by lia.
  replace (0xF0 + c / 262144 <? 0xC0) with false by lia.
  replace (0xF0 + c / 262144 <? 0xE0) with false by lia.
  replace (0xF0 + c / 262144 <? 0xF0) with false by lia.
  replace (0xF0 + c / 262144 <? 0xF8) with true by lia.
  replace ((0xF0 + c / 262144 - 0xF0) * 262144 + (0x80 + c / 4096 mod 64 - 0x80) * 4096
           + (0x80 + c / 64 mod 64 - 0x80) * 64 + (0x80 + c mod 64 - 0x80)) with c by lia.
  unfold is_cont, is_scalar. replace (_ && _) with true by lia. reflexivity.
Qed.

Lemma decode_encode s : valid_str s -> decode (encode s) = Some s.
Proof.
  induction 1 as [|c s H _ IH]; [reflexivity|].
  cbn [encode flat_map]. fold (encode s). rewrite decode_encode_char by exact H. now rewrite IH.
Qed.

Lemma decode_sound_len n : forall l, (length l <= n)%nat -> forall s, decode l = Some s ->
  valid_str s /\ encode s = l.
Proof.
  induction n as [|n IH]; intros l L s D.
  { destruct l; [|cbn in L; lia]. cbn in D. inversion D. split; [constructor|reflexivity]. }
  destruct l as [|b0 r0]; [cbn in D; inversion D; split; [constructor|reflexivity]|].
  cbn [decode] in D. cbn [length] in L.
  assert (Step : forall c r, (length r <= n)%nat -> is_scalar c = true ->
    option_map (cons c) (decode r) = Some s -> valid_str s /\ encode s = encode_char c ++ r).
  { intros c r Lr Hc Dr. destruct (decode r) as [s'|] eqn:E; [|discriminate]. cbn in Dr.
    inversion Dr; subst s. destruct (IH r Lr s' E) as [V Q]. split; [now constructor|].
    cbn [encode flat_map]. fold (encode s'). now rewrite Q. }
  destruct (b0 <? 0x80) eqn:A.
  { destruct (Step b0 r0) as [V Q]; [lia|apply is_scalar_spec; lia|exact D|].
    split; [exact V|]. rewrite Q. unfold encode_char. now rewrite A. }
  destruct (b0 <? 0xC0) eqn:B; [discriminate|].
  destruct (b0 <? 0xE0) eqn:C.
  { destruct r0 as [|b1 r1]; [discriminate|]. cbn [length] in L.
    set (c := (b0 - 0xC0) * 64 + (b1 - 0x80)) in *. unfold is_cont in D.
    match type of D with (if ?b then _ else _) = _ => destruct b eqn:G end; [|discriminate].
    destruct (Step c r1) as [V Q]; [lia|apply is_scalar_spec; lia|exact D|].
    split; [exact V|]. rewrite Q. unfold encode_char.
    replace (c <? 0x80) with false by lia. replace (c <? 0x800) with true by lia.
    cbn [app]. repeat f_equal; lia. }
  destruct (b0 <? 0xF0) eqn:C'.
  { destruct r0 as [|b1 [|b2 r2]]; try discriminate. cbn [length] in L.
    set (c := (b0 - 0xE0) * 4096 + (b1 - 0x80) * 64 + (b2 - 0x80)) in *. unfold is_cont in D.
    match type of D with (if ?b then _ else _) = _ => destruct b eqn:G end; [|discriminate].
    apply andb_prop in G. destruct G as [G Sc].
    destruct (Step c r2) as [V Q]; [lia|exact Sc|exact D|].
    split; [exact V|]. rewrite Q. unfold encode_char.
    replace (c <? 0x80) with false by lia. replace (c <? 0x800) with false by lia.
    replace (c <? 0x10000) with true by lia.
    cbn [app]. repeat f_equal; lia. }
  destruct (b0 <? 0xF8) eqn:C''; [|discriminate].
  destruct r0 as [|b1 [|b2 [|b3 r3]]]; try discriminate. cbn [length] in L.
  set (c := (b0 - 0xF0) * 262144 + (b1 - 0x80) * 4096 + (b2 - 0x80) * 64 + (b3 - 0x80)) in *.
  unfold is_cont in D.
  match type of D with (if ?b then _ else _) = _ => destruct b eqn:G end; [|discriminate].
  apply andb_prop in G. destruct G as [G Sc].
  destruct (Step c r3) as [V Q]; [lia|exact Sc|exact D|].
  split; [exact V|]. rewrite Q. unfold encode_char.
  replace (c <? 0x80) with false by lia. replace (c <? 0x800) with false by lia.
  replace (c <? 0x10000) with false by lia.
  cbn [app]. repeat f_equal; lia.
Qed.
Lemma decode_sound l s : decode l = Some s -> valid_str s /\ encode s = l.
Proof. apply (decode_sound_len (length l)); auto. Qed.

(** [l] is UTF-8 text for [s] *)
Lemma decode_iff l s : decode l = Some s <-> valid_str s /\ encode s = l.
Proof.
  split; [apply decode_sound|]. intros [V <-]. now apply decode_encode.
Qed.

(** first byte of a character is never a continuation byte *)
Lemma encode_char_head c : exists b l, encode_char c = b :: l /\ is_cont b = false.
Proof.
  unfold encode_char. destruct (c <? 0x80) eqn:A; [|destruct (c <? 0x800) eqn:B; [|destruct (c <? 0x10000) eqn:C]];
    do 2 eexists; (split; [reflexivity|]); unfold is_cont; lia.
Qed.
