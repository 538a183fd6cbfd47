(** Decoding UTF-8: proofs. *)
From Coq Require Import ZArith NArith String Ascii List Bool Lia.
From Verif Require Import Base Num ModelTypes ModelScan ModelAst ModelUtf8 SpecLines.
Import ListNotations.
Local Open Scope string_scope.
Local Open Scope list_scope.
Local Open Scope Z_scope.

Lemma decode_eq : forall c0 t, decode (String c0 t) =
      let b := value c0 in
      if b <? 128 then b :: decode t
      else if between 194 223 b then
        match t with
        | String c1 t1 =>
            if continuation c1 then ((b - 192) * 64 + (value c1 - 128)) :: decode t1 else replacement :: decode t
        | _ => replacement :: decode t
        end
      else if between 224 239 b then
        match t with
        | String c1 (String c2 t2) =>
            if second_of_three b (value c1) && continuation c2
            then ((b - 224) * 4096 + (value c1 - 128) * 64 + (value c2 - 128)) :: decode t2
            else replacement :: decode t
        | _ => replacement :: decode t
        end
      else if between 240 244 b then
        match t with
        | String c1 (String c2 (String c3 t3)) =>
            if second_of_four b (value c1) && continuation c2 && continuation c3
            then ((b - 240) * 262144 + (value c1 - 128) * 4096 + (value c2 - 128) * 64 + (value c3 - 128)) :: decode t3
            else replacement :: decode t
        | _ => replacement :: decode t
        end
      else replacement :: decode t.
Proof. reflexivity. Qed.

(* ---------------- a byte that is no part of a longer encoding ---------------- *)
Lemma low_second : forall b c, value c < 128 -> second_of_three b (value c) = false /\ second_of_four b (value c) = false /\ continuation c = false.
Proof.
  intros b c H. unfold second_of_three, second_of_four, continuation, between.
  assert (E1 : (128 <=? value c) = false) by lia. assert (E2 : (160 <=? value c) = false) by lia. assert (E3 : (144 <=? value c) = false) by lia. rewrite E1, E2, E3.
  destruct (b =? 224), (b =? 237), (b =? 240), (b =? 244); auto.
Qed.
Lemma decode_app : forall n s c t, (String.length s <= n)%nat -> value c < 128 -> decode (s ++ String c t)%string = decode s ++ value c :: decode t.
Proof.
  induction n as [|n IH]; intros s c t L H.
  { destruct s; [|cbn in L; lia]. cbn [append app]. rewrite decode_eq. cbv zeta. replace (value c <? 128) with true by lia. reflexivity. }
  destruct s as [|c0 s]; [cbn [append app]; rewrite decode_eq; cbv zeta; replace (value c <? 128) with true by lia; reflexivity|].
  cbn [append]. rewrite !decode_eq. cbv zeta. cbn [String.length] in L. assert (I1 := IH s c t ltac:(lia) H). 
  destruct (value c0 <? 128); [now rewrite I1|]. destruct (between 194 223 (value c0)).
  { destruct s as [|c1 s]; cbn [append] in *.
    - destruct (low_second 0 c H) as (_ & _ & ->). now rewrite I1.
    - destruct (continuation c1); [|now rewrite I1]. rewrite (IH s c t); [reflexivity|cbn [String.length] in L; lia|exact H]. }
  destruct (between 224 239 (value c0)).
  { destruct s as [|c1 [|c2 s]]; cbn [append] in *.
    - destruct t as [|c2 t]; [now rewrite I1|]. destruct (low_second (value c0) c H) as (-> & _). cbn [andb]. now rewrite I1.
    - destruct (low_second 0 c H) as (_ & _ & ->). rewrite andb_false_r. now rewrite I1.
    - destruct (second_of_three _ _ && continuation c2); [|now rewrite I1]. rewrite (IH s c t); [reflexivity|cbn [String.length] in L; lia|exact H]. }
  destruct (between 240 244 (value c0)).
  { destruct (low_second (value c0) c H) as (_ & E1 & E2). destruct s as [|c1 [|c2 [|c3 s]]]; cbn [append] in *.
    - rewrite E1. cbn [andb]. destruct t as [|? [|]]; now rewrite I1.
    - rewrite E2, !andb_false_r. cbn [andb]. destruct t as [|? ?]; now rewrite I1.
    - rewrite E2, !andb_false_r. now rewrite I1.
    - destruct (second_of_four _ _ && continuation c2 && continuation c3); [|now rewrite I1]. rewrite (IH s c t); [reflexivity|cbn [String.length] in L; lia|exact H]. }
  now rewrite I1.
Qed.
Lemma decode_newline : forall s t, decode (s ++ String "010"%char t)%string = decode s ++ newline :: decode t.
Proof. intros s t. apply (decode_app (String.length s)); [lia|reflexivity]. Qed.

(* ---------------- decoding what was encoded ---------------- *)
Lemma value_byte : forall z, 0 <= z < 256 -> value (byte z) = z.
Proof. intros z H. unfold value, byte. rewrite N_ascii_embedding; [apply Z2N.id; lia|]. change 256%N with (Z.to_N 256). apply Z2N.inj_lt; lia. Qed.
Lemma decode_rune : forall r t, scalar r -> decode (string_of_list_ascii (utf8_rune r) ++ t)%string = r :: decode t.
Proof.
  intros r t [R S]. unfold rune in *. unfold utf8_rune.
  destruct ((0 <=? r) && (r <? 128)) eqn:E1.
  { cbn [string_of_list_ascii append]. rewrite decode_eq. cbv zeta. rewrite value_byte by lia. replace (r <? 128) with true by lia. reflexivity. }
  destruct ((128 <=? r) && (r <? 2048)) eqn:E2.
  { cbn [string_of_list_ascii append]. rewrite decode_eq. cbv zeta. unfold continuation. pose proof (Z.div_mod r 64 ltac:(lia)). pose proof (Z.mod_pos_bound r 64 ltac:(lia)).
    rewrite !value_byte by lia. replace (192 + r / 64 <? 128) with false by lia. replace (between 194 223 (192 + r / 64)) with true by (unfold between; lia).
    replace (between 128 191 (128 + r mod 64)) with true by (unfold between; lia). f_equal. lia. }
  destruct ((2048 <=? r) && (r <? 65536) && negb ((55296 <=? r) && (r <? 57344))) eqn:E3.
  { cbn [string_of_list_ascii append]. rewrite decode_eq. cbv zeta. unfold continuation.
    pose proof (Z.div_mod r 64 ltac:(lia)). pose proof (Z.mod_pos_bound r 64 ltac:(lia)). pose proof (Z.div_mod (r / 64) 64 ltac:(lia)). pose proof (Z.mod_pos_bound (r / 64) 64 ltac:(lia)).
    assert (D : r / 4096 = r / 64 / 64) by (rewrite Z.div_div by lia; reflexivity). rewrite D in *. set (a := r / 64) in *. set (m := r mod 64) in *. set (b := a / 64) in *. set (k := a mod 64) in *.
    rewrite !value_byte by lia. replace (224 + b <? 128) with false by lia. replace (between 194 223 (224 + b)) with false by (unfold between; lia). replace (between 224 239 (224 + b)) with true by (unfold between; lia).
    replace (between 128 191 (128 + m)) with true by (unfold between; lia).
    replace (second_of_three (224 + b) (128 + k)) with true.
    - cbn [andb]. f_equal. lia.
    - unfold second_of_three, between. destruct (224 + b =? 224) eqn:B1; [lia|]. destruct (224 + b =? 237) eqn:B2; lia. }
  destruct ((65536 <=? r) && (r <? 1114112)) eqn:E4; [|lia].
  cbn [string_of_list_ascii append]. rewrite decode_eq. cbv zeta. unfold continuation.
  pose proof (Z.div_mod r 64 ltac:(lia)). pose proof (Z.mod_pos_bound r 64 ltac:(lia)). pose proof (Z.div_mod (r / 64) 64 ltac:(lia)). pose proof (Z.mod_pos_bound (r / 64) 64 ltac:(lia)).
  pose proof (Z.div_mod (r / 64 / 64) 64 ltac:(lia)). pose proof (Z.mod_pos_bound (r / 64 / 64) 64 ltac:(lia)).
  assert (D : r / 4096 = r / 64 / 64) by (rewrite Z.div_div by lia; reflexivity). assert (D' : r / 262144 = r / 64 / 64 / 64) by (rewrite !Z.div_div by lia; reflexivity). rewrite D, D' in *.
  set (a := r / 64) in *. set (m := r mod 64) in *. set (b := a / 64) in *. set (k := a mod 64) in *. set (q := b / 64) in *. set (l := b mod 64) in *.
  rewrite !value_byte by lia. replace (240 + q <? 128) with false by lia. replace (between 194 223 (240 + q)) with false by (unfold between; lia). replace (between 224 239 (240 + q)) with false by (unfold between; lia).
  replace (between 240 244 (240 + q)) with true by (unfold between; lia). replace (between 128 191 (128 + m)) with true by (unfold between; lia). replace (between 128 191 (128 + k)) with true by (unfold between; lia).
  replace (second_of_four (240 + q) (128 + l)) with true.
  - cbn [andb]. f_equal. lia.
  - unfold second_of_four, between. destruct (240 + q =? 240) eqn:B1; [lia|]. destruct (240 + q =? 244) eqn:B2; lia.
Qed.
Lemma string_app : forall a b, string_of_list_ascii (a ++ b) = (string_of_list_ascii a ++ string_of_list_ascii b)%string.
Proof. induction a as [|c a IH]; intros b; [reflexivity|]. cbn. now rewrite IH. Qed.
Lemma decode_utf8 : forall rs, Forall scalar rs -> decode (utf8 rs) = rs.
Proof. unfold utf8. induction 1 as [|r rs H _ IH]; [reflexivity|]. cbn [flat_map]. rewrite string_app, decode_rune by exact H. now rewrite IH. Qed.
