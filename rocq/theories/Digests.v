(** * The hashers of the feature [digest]
    MD2, MD4, MD5, SHA-1, RIPEMD-160, RIPEMD-320, Whirlpool and Groestl-256 of the RustCrypto
    crates, SHA-256 and SHA3-256 and Keccak-256 of the same (src/tree_hasher/mod.rs:41-75), through
    src/traits.rs:25-49.  BLAKE2b is in Blake.v.  As in Hashers.v, the functions are modelled from
    their published specifications, which are not in this repository; the examples are published
    test vectors, and for longer inputs the values of other implementations. *)
From Coq Require Import Strings.Byte NArith.
From stdpp Require Import prelude countable gmap sorting strings.
From Verif Require Import Model Bits Codec CodecProofs Fx Sea Hashers Blake.

Local Open Scope nat_scope.

(** ** Padding
    A one, zeros, and the length [len] at the end of the last block. *)
Section Close.
  Context {A : Type} (w : nat) (step : A → bytes → A).
  Definition md_close (len : bytes) (s : buf) : A :=
    let t := buf_tail s in
    if length t + length len <? w
    then step (buf_st s) (t ++ x80 :: replicate (w - 1 - length len - length t) x00 ++ len)
    else step (step (buf_st s) (t ++ x80 :: replicate (w - 1 - length t) x00)) (replicate (w - length len) x00 ++ len).
  Lemma md_close_inv (P : A → Prop) (Hs : ∀ a b, P a → P (step a b)) len s : P (buf_st s) → P (md_close len s).
  Proof using. intros Ha. unfold md_close. destruct (_ <? _); auto. Qed.
End Close.
Definition le_words (b : bytes) : list N := (λ i, word_of (take 4 (drop (4 * i) b))) <$> seq 0 16.
Definition be_words (b : bytes) : list N := (λ i, word_be (take 4 (drop (4 * i) b))) <$> seq 0 16.
Definition bit_len (s : @buf (list N)) : N := w64 (8 * buf_total s).
Definition rotl32 (x r : N) : N := N.lor (w32 (N.shiftl x r)) (N.shiftr x (32 - r)).
Definition not32 (x : N) : N := N.lxor x (N.ones 32).
Definition add32 (s s' : list N) : list N := zip_with (λ x y, w32 (x + y)) s s'.
Definition md_init : list N := [0x67452301; 0xefcdab89; 0x98badcfe; 0x10325476]%N.
Definition md_init5 : list N := md_init ++ [0xc3d2e1f0%N].

(** ** MD4 (RFC 1320), MD5 (RFC 1321)
    A step: the kind of function, the word, the rotation, the constant. *)
Definition md4_steps : list (nat * nat * N) := [
  (0, 0, 3%N); (0, 1, 7%N); (0, 2, 11%N); (0, 3, 19%N); (0, 4, 3%N); (0, 5, 7%N); (0, 6, 11%N); (0, 7, 19%N);
  (0, 8, 3%N); (0, 9, 7%N); (0, 10, 11%N); (0, 11, 19%N); (0, 12, 3%N); (0, 13, 7%N); (0, 14, 11%N); (0, 15,
  19%N); (1, 0, 3%N); (1, 4, 5%N); (1, 8, 9%N); (1, 12, 13%N); (1, 1, 3%N); (1, 5, 5%N); (1, 9, 9%N); (1, 13,
  13%N); (1, 2, 3%N); (1, 6, 5%N); (1, 10, 9%N); (1, 14, 13%N); (1, 3, 3%N); (1, 7, 5%N); (1, 11, 9%N); (1,
  15, 13%N); (2, 0, 3%N); (2, 8, 9%N); (2, 4, 11%N); (2, 12, 15%N); (2, 2, 3%N); (2, 10, 9%N); (2, 6, 11%N);
  (2, 14, 15%N); (2, 1, 3%N); (2, 9, 9%N); (2, 5, 11%N); (2, 13, 15%N); (2, 3, 3%N); (2, 11, 9%N); (2, 7,
  11%N); (2, 15, 15%N)].
Definition md4_step (m : list N) (s : list N) (o : nat * nat * N) : list N :=
  match s with
  | [a; b; c; d] =>
      let '(k, g, r) := o in
      let f := match k with
               | 0 => N.lor (N.land b c) (N.land (not32 b) d)
               | 1 => N.lor (N.lor (N.land b c) (N.land b d)) (N.land c d)
               | _ => N.lxor (N.lxor b c) d
               end in
      let q := match k with 0 => 0%N | 1 => 0x5a827999%N | _ => 0x6ed9eba1%N end in
      [d; rotl32 (w32 (a + f + lane m g + q)) r; b; c]
  | _ => s
  end.
Definition md4_block (s : list N) (b : bytes) : list N := add32 s (foldl (md4_step (le_words b)) s md4_steps).
Definition md5_k : list N := [
  0xd76aa478; 0xe8c7b756; 0x242070db; 0xc1bdceee; 0xf57c0faf; 0x4787c62a; 0xa8304613; 0xfd469501; 0x698098d8;
  0x8b44f7af; 0xffff5bb1; 0x895cd7be; 0x6b901122; 0xfd987193; 0xa679438e; 0x49b40821; 0xf61e2562; 0xc040b340;
  0x265e5a51; 0xe9b6c7aa; 0xd62f105d; 0x2441453; 0xd8a1e681; 0xe7d3fbc8; 0x21e1cde6; 0xc33707d6; 0xf4d50d87;
  0x455a14ed; 0xa9e3e905; 0xfcefa3f8; 0x676f02d9; 0x8d2a4c8a; 0xfffa3942; 0x8771f681; 0x6d9d6122; 0xfde5380c;
  0xa4beea44; 0x4bdecfa9; 0xf6bb4b60; 0xbebfbc70; 0x289b7ec6; 0xeaa127fa; 0xd4ef3085; 0x4881d05; 0xd9d4d039;
  0xe6db99e5; 0x1fa27cf8; 0xc4ac5665; 0xf4292244; 0x432aff97; 0xab9423a7; 0xfc93a039; 0x655b59c3; 0x8f0ccc92;
  0xffeff47d; 0x85845dd1; 0x6fa87e4f; 0xfe2ce6e0; 0xa3014314; 0x4e0811a1; 0xf7537e82; 0xbd3af235; 0x2ad7d2bb;
  0xeb86d391]%N.
Definition md5_word (i : nat) : nat :=
  (match i / 16 with 0 => i | 1 => 5 * i + 1 | 2 => 3 * i + 5 | _ => 7 * i end) mod 16.
Definition md5_rot (i : nat) : N :=
  nth (i mod 4) (nth (i / 16) [[7; 12; 17; 22]; [5; 9; 14; 20]; [4; 11; 16; 23]; [6; 10; 15; 21]] [])%N 0%N.
Definition md5_step (m : list N) (s : list N) (i : nat) : list N :=
  match s with
  | [a; b; c; d] =>
      let f := match i / 16 with
               | 0 => N.lor (N.land b c) (N.land (not32 b) d)
               | 1 => N.lor (N.land d b) (N.land (not32 d) c)
               | 2 => N.lxor (N.lxor b c) d
               | _ => N.lxor c (N.lor b (not32 d))
               end in
      [d; w32 (b + rotl32 (w32 (a + f + lane m (md5_word i) + lane md5_k i)) (md5_rot i)); b; c]
  | _ => s
  end.
Definition md5_block (s : list N) (b : bytes) : list N := add32 s (foldl (md5_step (le_words b)) s (seq 0 64)).
Definition md4_finish (s : buf) : bytes := concat (le_bytes 4 <$> md_close 64 md4_block (le_bytes 8 (bit_len s)) s).
Definition md5_finish (s : buf) : bytes := concat (le_bytes 4 <$> md_close 64 md5_block (le_bytes 8 (bit_len s)) s).
Definition md4_digest (cs : list bytes) : bytes := md4_finish (foldl (buf_write 64 md4_block) (buf_new md_init) cs).
Definition md5_digest (cs : list bytes) : bytes := md5_finish (foldl (buf_write 64 md5_block) (buf_new md_init) cs).

(** ** SHA-1 (RFC 3174) *)
Definition sha1_extend (ws : list N) : list N :=
  rotl32 (N.lxor (N.lxor (lane ws 2) (lane ws 7)) (N.lxor (lane ws 13) (lane ws 15))) 1 :: ws.
Definition sha1_schedule (b : bytes) : list N := reverse (Nat.iter 64 sha1_extend (reverse (be_words b))).
Definition sha1_step (s : list N) (iw : nat * N) : list N :=
  match s with
  | [a; b; c; d; e] =>
      let '(i, x) := iw in
      let f := match i / 20 with
               | 0 => N.lor (N.land b c) (N.land (not32 b) d)
               | 2 => N.lor (N.lor (N.land b c) (N.land b d)) (N.land c d)
               | _ => N.lxor (N.lxor b c) d
               end in
      let q := lane [0x5a827999; 0x6ed9eba1; 0x8f1bbcdc; 0xca62c1d6]%N (i / 20) in
      [w32 (rotl32 a 5 + f + e + x + q); a; rotl32 b 30; c; d]
  | _ => s
  end.
Definition sha1_block (s : list N) (b : bytes) : list N :=
  add32 s (foldl sha1_step s (zip (seq 0 80) (sha1_schedule b))).
Definition sha1_finish (s : buf) : bytes := concat (be_bytes 4 <$> md_close 64 sha1_block (be_bytes 8 (bit_len s)) s).
Definition sha1_digest (cs : list bytes) : bytes := sha1_finish (foldl (buf_write 64 sha1_block) (buf_new md_init5) cs).

(** ** RIPEMD (Dobbertin, Bosselaers, Preneel)
    The words and the rotations of the left and of the right line. *)
Definition rmd_rho : list nat := [7; 4; 13; 1; 10; 6; 15; 3; 12; 0; 9; 5; 2; 14; 11; 8].
Definition rmd_word (left : bool) (j : nat) : nat :=
  Nat.iter (j / 16) (λ i, nth i rmd_rho 0) (if left then j mod 16 else (9 * (j mod 16) + 5) mod 16).
Definition rmd_shifts : list (list N) := [
  [11; 14; 15; 12; 5; 8; 7; 9; 11; 13; 14; 15; 6; 7; 9; 8];
  [12; 13; 11; 15; 6; 9; 9; 7; 12; 15; 11; 13; 7; 8; 7; 7];
  [13; 15; 14; 11; 7; 7; 6; 8; 13; 14; 13; 12; 5; 5; 6; 9];
  [14; 11; 12; 14; 8; 6; 5; 5; 15; 12; 15; 14; 9; 9; 8; 6];
  [15; 12; 13; 13; 9; 5; 8; 6; 14; 11; 12; 11; 8; 6; 5; 5]]%N.
Definition rmd_f (k : nat) (x y z : N) : N :=
  match k with
  | 0 => N.lxor (N.lxor x y) z
  | 1 => N.lor (N.land x y) (N.land (not32 x) z)
  | 2 => N.lxor (N.lor x (not32 y)) z
  | 3 => N.lor (N.land x z) (N.land y (not32 z))
  | _ => N.lxor x (N.lor y (not32 z))
  end.
Definition rmd_k (left : bool) (k : nat) : N :=
  lane (if left then [0; 0x5a827999; 0x6ed9eba1; 0x8f1bbcdc; 0xa953fd4e]
        else [0x50a28be6; 0x5c4dd124; 0x6d703ef3; 0x7a6d76e9; 0])%N k.
Definition rmd_step (left : bool) (m : list N) (s : list N) (j : nat) : list N :=
  match s with
  | [a; b; c; d; e] =>
      let k := j / 16 in let g := rmd_word left j in
      let f := rmd_f (if left then k else 4 - k) b c d in
      let t := rotl32 (w32 (a + f + lane m g + rmd_k left k)) (lane (nth k rmd_shifts []) g) in
      [e; w32 (t + e); b; rotl32 c 10; d]
  | _ => s
  end.
Definition rmd160_block (s : list N) (b : bytes) : list N :=
  let m := le_words b in
  match s, foldl (rmd_step true m) s (seq 0 80), foldl (rmd_step false m) s (seq 0 80) with
  | [h0; h1; h2; h3; h4], [a; b; c; d; e], [a'; b'; c'; d'; e'] =>
      [w32 (h1 + c + d'); w32 (h2 + d + e'); w32 (h3 + e + a'); w32 (h4 + a + b'); w32 (h0 + b + c')]
  | _, _, _ => s
  end.
Definition rmd160_finish (s : buf) : bytes := concat (le_bytes 4 <$> md_close 64 rmd160_block (le_bytes 8 (bit_len s)) s).
Definition rmd160_digest (cs : list bytes) : bytes :=
  rmd160_finish (foldl (buf_write 64 rmd160_block) (buf_new md_init5) cs).
(** Both lines, one word exchanged after every 16 steps. *)
Definition rmd320_round (m : list N) (lr : list N * list N) (ki : nat * nat) : list N * list N :=
  let '(k, i) := ki in
  let l := foldl (rmd_step true m) lr.1 (seq (16 * k) 16) in
  let r := foldl (rmd_step false m) lr.2 (seq (16 * k) 16) in
  (<[i := lane r i]> l, <[i := lane l i]> r).
Definition rmd320_block (s : list N) (b : bytes) : list N :=
  let lr := foldl (rmd320_round (le_words b)) (take 5 s, drop 5 s) [(0, 1); (1, 3); (2, 0); (3, 2); (4, 4)] in
  add32 s (lr.1 ++ lr.2).
Definition rmd320_init : list N := md_init5 ++ [0x76543210; 0xfedcba98; 0x89abcdef; 0x01234567; 0x3c2d1e0f]%N.
Definition rmd320_finish (s : buf) : bytes := concat (le_bytes 4 <$> md_close 64 rmd320_block (le_bytes 8 (bit_len s)) s).
Definition rmd320_digest (cs : list bytes) : bytes :=
  rmd320_finish (foldl (buf_write 64 rmd320_block) (buf_new rmd320_init) cs).

(** ** MD2 (RFC 1319)
    The state: the 16 bytes kept, and the checksum. *)
Definition md2_s : list N := [
  41; 46; 67; 201; 162; 216; 124; 1; 61; 54; 84; 161; 236; 240; 6; 19; 98; 167; 5; 243; 192; 199; 115; 140;
  152; 147; 43; 217; 188; 76; 130; 202; 30; 155; 87; 60; 253; 212; 224; 22; 103; 66; 111; 24; 138; 23; 229;
  18; 190; 78; 196; 214; 218; 158; 222; 73; 160; 251; 245; 142; 187; 47; 238; 122; 169; 104; 121; 145; 21;
  178; 7; 63; 148; 194; 16; 137; 11; 34; 95; 33; 128; 127; 93; 154; 90; 144; 50; 39; 53; 62; 204; 231; 191;
  247; 151; 3; 255; 25; 48; 179; 72; 165; 181; 209; 215; 94; 146; 42; 172; 86; 170; 198; 79; 184; 56; 210;
  150; 164; 125; 182; 118; 252; 107; 226; 156; 116; 4; 241; 69; 157; 112; 89; 100; 113; 135; 32; 134; 91; 207;
  101; 230; 45; 168; 2; 27; 96; 37; 173; 174; 176; 185; 246; 28; 70; 97; 105; 52; 64; 126; 15; 85; 71; 163;
  35; 221; 81; 175; 58; 195; 92; 249; 206; 186; 197; 234; 38; 44; 83; 13; 110; 133; 40; 132; 9; 211; 223; 205;
  244; 65; 129; 77; 82; 106; 220; 55; 200; 108; 193; 171; 250; 36; 225; 123; 8; 12; 189; 177; 74; 120; 136;
  149; 139; 227; 99; 232; 109; 233; 203; 213; 254; 59; 0; 29; 57; 242; 239; 183; 14; 102; 88; 208; 228; 166;
  119; 114; 248; 235; 117; 75; 10; 49; 68; 80; 180; 143; 237; 31; 26; 219; 153; 141; 51; 159; 17; 131; 20]%N.
Definition md2_pass (x : list N) (t : N) : list N * N :=
  let r := foldl (λ a y, let z := N.lxor y (lane md2_s (N.to_nat a.2)) in (z :: a.1, z)) ([], t) x in
  (reverse r.1, r.2).
Definition md2_mix (x b : list N) : list N :=
  let x48 := x ++ b ++ zip_with N.lxor b x in
  take 16 (foldl (λ a j, let r := md2_pass a.1 a.2 in (r.1, ((r.2 + N.of_nat j) mod 256)%N)) (x48, 0%N) (seq 0 18)).1.
Definition md2_sum (c b : list N) : list N :=
  reverse (foldl (λ a p, let z := N.lxor p.1 (lane md2_s (N.to_nat (N.lxor p.2 a.2))) in (z :: a.1, z))
    ([], lane c 15) (zip c b)).1.
Definition md2_block (s : list N * list N) (b : bytes) : list N * list N :=
  let m := Byte.to_N <$> b in (md2_mix s.1 m, md2_sum s.2 m).
Definition md2_init : list N * list N := (replicate 16 0%N, replicate 16 0%N).
Definition md2_finish (s : buf) : bytes :=
  let p := 16 - length (buf_tail s) in
  let s' := md2_block (buf_st s) (buf_tail s ++ replicate p (byte_of (N.of_nat p))) in
  byte_of <$> md2_mix s'.1 s'.2.
Definition md2_digest (cs : list bytes) : bytes := md2_finish (foldl (buf_write 16 md2_block) (buf_new md2_init) cs).

(** ** Whirlpool (ISO/IEC 10118-3)
    The state: 64 bytes, row after row. *)
Definition xtime (p x : N) : N := let y := (2 * x)%N in if (y <? 256)%N then y else N.lxor y p.
Fixpoint gmul (fuel : nat) (p a b : N) : N :=
  match fuel with
  | 0 => 0%N
  | S fuel' => N.lxor (if N.odd b then a else 0%N) (gmul fuel' p (xtime p a) (N.div2 b))
  end.
Definition xsum (l : list N) : N := foldl N.lxor 0%N l.
Definition xors (a b : list N) : list N := (λ i, N.lxor (lane a i) (lane b i)) <$> seq 0 64.
Definition wh_s : list N := [
  0x18; 0x23; 0xc6; 0xe8; 0x87; 0xb8; 0x1; 0x4f; 0x36; 0xa6; 0xd2; 0xf5; 0x79; 0x6f; 0x91; 0x52; 0x60; 0xbc;
  0x9b; 0x8e; 0xa3; 0xc; 0x7b; 0x35; 0x1d; 0xe0; 0xd7; 0xc2; 0x2e; 0x4b; 0xfe; 0x57; 0x15; 0x77; 0x37; 0xe5;
  0x9f; 0xf0; 0x4a; 0xda; 0x58; 0xc9; 0x29; 0xa; 0xb1; 0xa0; 0x6b; 0x85; 0xbd; 0x5d; 0x10; 0xf4; 0xcb; 0x3e;
  0x5; 0x67; 0xe4; 0x27; 0x41; 0x8b; 0xa7; 0x7d; 0x95; 0xd8; 0xfb; 0xee; 0x7c; 0x66; 0xdd; 0x17; 0x47; 0x9e;
  0xca; 0x2d; 0xbf; 0x7; 0xad; 0x5a; 0x83; 0x33; 0x63; 0x2; 0xaa; 0x71; 0xc8; 0x19; 0x49; 0xd9; 0xf2; 0xe3;
  0x5b; 0x88; 0x9a; 0x26; 0x32; 0xb0; 0xe9; 0xf; 0xd5; 0x80; 0xbe; 0xcd; 0x34; 0x48; 0xff; 0x7a; 0x90; 0x5f;
  0x20; 0x68; 0x1a; 0xae; 0xb4; 0x54; 0x93; 0x22; 0x64; 0xf1; 0x73; 0x12; 0x40; 0x8; 0xc3; 0xec; 0xdb; 0xa1;
  0x8d; 0x3d; 0x97; 0x0; 0xcf; 0x2b; 0x76; 0x82; 0xd6; 0x1b; 0xb5; 0xaf; 0x6a; 0x50; 0x45; 0xf3; 0x30; 0xef;
  0x3f; 0x55; 0xa2; 0xea; 0x65; 0xba; 0x2f; 0xc0; 0xde; 0x1c; 0xfd; 0x4d; 0x92; 0x75; 0x6; 0x8a; 0xb2; 0xe6;
  0xe; 0x1f; 0x62; 0xd4; 0xa8; 0x96; 0xf9; 0xc5; 0x25; 0x59; 0x84; 0x72; 0x39; 0x4c; 0x5e; 0x78; 0x38; 0x8c;
  0xd1; 0xa5; 0xe2; 0x61; 0xb3; 0x21; 0x9c; 0x1e; 0x43; 0xc7; 0xfc; 0x4; 0x51; 0x99; 0x6d; 0xd; 0xfa; 0xdf;
  0x7e; 0x24; 0x3b; 0xab; 0xce; 0x11; 0x8f; 0x4e; 0xb7; 0xeb; 0x3c; 0x81; 0x94; 0xf7; 0xb9; 0x13; 0x2c; 0xd3;
  0xe7; 0x6e; 0xc4; 0x3; 0x56; 0x44; 0x7f; 0xa9; 0x2a; 0xbb; 0xc1; 0x53; 0xdc; 0xb; 0x9d; 0x6c; 0x31; 0x74;
  0xf6; 0x46; 0xac; 0x89; 0x14; 0xe1; 0x16; 0x3a; 0x69; 0x9; 0x70; 0xb6; 0xd0; 0xed; 0xcc; 0x42; 0x98; 0xa4;
  0x28; 0x5c; 0xf8; 0x86]%N.
(** Substitution, shift of the columns, mixing of the rows. *)
Definition wh_round (s : list N) : list N :=
  let t := (λ i, lane wh_s (N.to_nat (lane s (8 * ((i / 8 + 8 - i mod 8) mod 8) + i mod 8)))) <$> seq 0 64 in
  (λ i, xsum ((λ k, gmul 4 0x11d (lane t (8 * (i / 8) + k)) (lane [1; 1; 4; 1; 8; 5; 2; 9]%N ((i mod 8 + 8 - k) mod 8)))
     <$> seq 0 8)) <$> seq 0 64.
Definition wh_key (k : list N) (r : nat) : list N := xors (wh_round k) (take 8 (drop (8 * r) wh_s) ++ replicate 56 0%N).
Definition wh_block (h : list N) (b : bytes) : list N :=
  let m := Byte.to_N <$> b in
  let r := foldl (λ ks r, let k := wh_key ks.1 r in (k, xors (wh_round ks.2) k)) (h, xors m h) (seq 0 10) in
  xors (xors r.2 h) m.
Definition wh_finish (s : buf) : bytes := byte_of <$> md_close 64 wh_block (be_bytes 32 (8 * buf_total s)) s.
Definition wh_digest (cs : list bytes) : bytes := wh_finish (foldl (buf_write 64 wh_block) (buf_new (replicate 64 0%N)) cs).

(** ** Groestl-256 (Gauravaram and others)
    The state: 64 bytes, column after column. *)
Definition gr_s : list N := [
  0x63; 0x7c; 0x77; 0x7b; 0xf2; 0x6b; 0x6f; 0xc5; 0x30; 0x1; 0x67; 0x2b; 0xfe; 0xd7; 0xab; 0x76; 0xca; 0x82;
  0xc9; 0x7d; 0xfa; 0x59; 0x47; 0xf0; 0xad; 0xd4; 0xa2; 0xaf; 0x9c; 0xa4; 0x72; 0xc0; 0xb7; 0xfd; 0x93; 0x26;
  0x36; 0x3f; 0xf7; 0xcc; 0x34; 0xa5; 0xe5; 0xf1; 0x71; 0xd8; 0x31; 0x15; 0x4; 0xc7; 0x23; 0xc3; 0x18; 0x96;
  0x5; 0x9a; 0x7; 0x12; 0x80; 0xe2; 0xeb; 0x27; 0xb2; 0x75; 0x9; 0x83; 0x2c; 0x1a; 0x1b; 0x6e; 0x5a; 0xa0;
  0x52; 0x3b; 0xd6; 0xb3; 0x29; 0xe3; 0x2f; 0x84; 0x53; 0xd1; 0x0; 0xed; 0x20; 0xfc; 0xb1; 0x5b; 0x6a; 0xcb;
  0xbe; 0x39; 0x4a; 0x4c; 0x58; 0xcf; 0xd0; 0xef; 0xaa; 0xfb; 0x43; 0x4d; 0x33; 0x85; 0x45; 0xf9; 0x2; 0x7f;
  0x50; 0x3c; 0x9f; 0xa8; 0x51; 0xa3; 0x40; 0x8f; 0x92; 0x9d; 0x38; 0xf5; 0xbc; 0xb6; 0xda; 0x21; 0x10; 0xff;
  0xf3; 0xd2; 0xcd; 0xc; 0x13; 0xec; 0x5f; 0x97; 0x44; 0x17; 0xc4; 0xa7; 0x7e; 0x3d; 0x64; 0x5d; 0x19; 0x73;
  0x60; 0x81; 0x4f; 0xdc; 0x22; 0x2a; 0x90; 0x88; 0x46; 0xee; 0xb8; 0x14; 0xde; 0x5e; 0xb; 0xdb; 0xe0; 0x32;
  0x3a; 0xa; 0x49; 0x6; 0x24; 0x5c; 0xc2; 0xd3; 0xac; 0x62; 0x91; 0x95; 0xe4; 0x79; 0xe7; 0xc8; 0x37; 0x6d;
  0x8d; 0xd5; 0x4e; 0xa9; 0x6c; 0x56; 0xf4; 0xea; 0x65; 0x7a; 0xae; 0x8; 0xba; 0x78; 0x25; 0x2e; 0x1c; 0xa6;
  0xb4; 0xc6; 0xe8; 0xdd; 0x74; 0x1f; 0x4b; 0xbd; 0x8b; 0x8a; 0x70; 0x3e; 0xb5; 0x66; 0x48; 0x3; 0xf6; 0xe;
  0x61; 0x35; 0x57; 0xb9; 0x86; 0xc1; 0x1d; 0x9e; 0xe1; 0xf8; 0x98; 0x11; 0x69; 0xd9; 0x8e; 0x94; 0x9b; 0x1e;
  0x87; 0xe9; 0xce; 0x55; 0x28; 0xdf; 0x8c; 0xa1; 0x89; 0xd; 0xbf; 0xe6; 0x42; 0x68; 0x41; 0x99; 0x2d; 0xf;
  0xb0; 0x54; 0xbb; 0x16]%N.
(** [q]: the permutation Q. *)
Definition gr_round (q : bool) (s : list N) (r : nat) : list N :=
  let c i := N.lxor (16 * N.of_nat (i / 8)) (N.of_nat r) in
  let k i := if q then N.lxor 255 (if i mod 8 =? 7 then c i else 0%N) else (if i mod 8 =? 0 then c i else 0%N) in
  let t := (λ i, lane gr_s (N.to_nat (N.lxor (lane s i) (k i)))) <$> seq 0 64 in
  let sh i := if q then nth i [1; 3; 5; 7; 0; 2; 4; 6] 0 else i in
  let u := (λ i, lane t (8 * ((i / 8 + sh (i mod 8)) mod 8) + i mod 8)) <$> seq 0 64 in
  (λ i, xsum ((λ k, gmul 3 0x11b (lane u (8 * (i / 8) + k)) (lane [2; 2; 3; 4; 5; 3; 5; 7]%N ((k + 8 - i mod 8) mod 8)))
     <$> seq 0 8)) <$> seq 0 64.
Definition gr_perm (q : bool) (s : list N) : list N := foldl (gr_round q) s (seq 0 10).
Definition gr_block (h : list N) (b : bytes) : list N :=
  let m := Byte.to_N <$> b in xors (xors (gr_perm false (xors h m)) (gr_perm true m)) h.
Definition gr_init : list N := replicate 62 0%N ++ [1; 0]%N.
(** The number of blocks instead of that of bits. *)
Definition gr_count (s : @buf (list N)) : N := ((buf_total s + 8) / 64 + 1)%N.
Definition gr_finish (s : buf) : bytes :=
  let h := md_close 64 gr_block (be_bytes 8 (gr_count s)) s in
  byte_of <$> drop 32 (xors (gr_perm false h) h).
Definition gr_digest (cs : list bytes) : bytes := gr_finish (foldl (buf_write 64 gr_block) (buf_new gr_init) cs).

(** ** The hashers (src/tree_hasher/mod.rs:41-75) *)
Definition md2 (n : nat) (cs : list bytes) : res bytes := finalize_digest n (md2_digest cs).
Definition md4 (n : nat) (cs : list bytes) : res bytes := finalize_digest n (md4_digest cs).
Definition md5 (n : nat) (cs : list bytes) : res bytes := finalize_digest n (md5_digest cs).
Definition sha1 (n : nat) (cs : list bytes) : res bytes := finalize_digest n (sha1_digest cs).
Definition ripemd160 (n : nat) (cs : list bytes) : res bytes := finalize_digest n (rmd160_digest cs).
Definition ripemd320 (n : nat) (cs : list bytes) : res bytes := finalize_digest n (rmd320_digest cs).
Definition whirlpool (n : nat) (cs : list bytes) : res bytes := finalize_digest n (wh_digest cs).
Definition groestl (n : nat) (cs : list bytes) : res bytes := finalize_digest n (gr_digest cs).
Definition rust_sha2 (n : nat) (cs : list bytes) : res bytes := finalize_digest n (sha256_digest cs).
Definition rust_sha3 (n : nat) (cs : list bytes) : res bytes := finalize_digest n (kc_digest x06 cs 32).
Definition rust_keccak (n : nat) (cs : list bytes) : res bytes := finalize_digest n (kc_digest x01 cs 32).

Example md2_vector : md2_digest [abc] =
  [xda; x85; x3b; x0d; x3f; x88; xd9; x9b; x30; x28; x3a; x69; xe6; xde; xd6; xbb].
Proof. vm_compute. reflexivity. Qed.
Example md2_blocks : md2_digest [replicate 60 x61; replicate 61 x61] =
  [xf0; x56; xa1; x1a; x5a; xdd; xd1; x36; xca; xc2; x7b; x25; x02; x0d; x86; xce].
Proof. vm_compute. reflexivity. Qed.
Example md4_vector : md4_digest [abc] =
  [xa4; x48; x01; x7a; xaf; x21; xd8; x52; x5f; xc1; x0a; xe8; x7a; xa6; x72; x9d].
Proof. vm_compute. reflexivity. Qed.
Example md4_blocks : md4_digest [replicate 60 x61; replicate 61 x61] =
  [xe5; x60; x1a; xa6; x99; x44; x70; xf9; x18; x40; x5d; x74; x5e; xde; x16; x3c].
Proof. vm_compute. reflexivity. Qed.
Example md5_vector : md5_digest [abc] =
  [x90; x01; x50; x98; x3c; xd2; x4f; xb0; xd6; x96; x3f; x7d; x28; xe1; x7f; x72].
Proof. vm_compute. reflexivity. Qed.
Example md5_blocks : md5_digest [replicate 60 x61; replicate 61 x61] =
  [xf6; xac; xfc; xa2; xd4; x7c; x87; xf2; xb1; x4c; xa0; x38; x23; x4d; x36; x14].
Proof. vm_compute. reflexivity. Qed.
Example sha1_vector : sha1_digest [abc] =
  [xa9; x99; x3e; x36; x47; x06; x81; x6a; xba; x3e; x25; x71; x78; x50; xc2; x6c; x9c; xd0; xd8; x9d].
Proof. vm_compute. reflexivity. Qed.
Example sha1_blocks : sha1_digest [replicate 60 x61; replicate 61 x61] =
  [xfa; x6b; x5a; x6f; x8a; xc2; x71; x82; xf8; x38; xfe; x78; x41; xec; x6d; x2a; xef; x3a; xde; x29].
Proof. vm_compute. reflexivity. Qed.
Example rmd160_vector : rmd160_digest [abc] =
  [x8e; xb2; x08; xf7; xe0; x5d; x98; x7a; x9b; x04; x4a; x8e; x98; xc6; xb0; x87; xf1; x5a; x0b; xfc].
Proof. vm_compute. reflexivity. Qed.
Example rmd160_blocks : rmd160_digest [replicate 60 x61; replicate 61 x61] =
  [x72; x5c; x88; xa6; xf4; x16; x05; xe9; x94; x77; xa1; x47; x86; x07; xd3; xfe; x25; xce; xd6; x06].
Proof. vm_compute. reflexivity. Qed.
Example rmd320_vector : rmd320_digest [abc] =
  [xde; x4c; x01; xb3; x05; x4f; x89; x30; xa7; x9d; x09; xae; x73; x8e; x92; x30; x1e; x5a; x17; x08; x5b;
  xef; xfd; xc1; xb8; xd1; x16; x71; x3e; x74; xf8; x2f; xa9; x42; xd6; x4c; xdb; xc4; x68; x2d].
Proof. vm_compute. reflexivity. Qed.
Example rmd320_blocks : rmd320_digest [replicate 60 x61; replicate 61 x61] =
  [x37; x00; x83; x61; xdb; x21; x48; xf4; xcf; x65; x26; xa1; x56; xd0; x64; x40; x27; x3c; xce; x3d; x60;
  x36; x76; xa6; xa0; x33; xe8; xd0; x01; x25; x18; xea; xb0; xfa; x61; x95; xbe; x7a; x24; x11].
Proof. vm_compute. reflexivity. Qed.
Example wh_vector : wh_digest [abc] =
  [x4e; x24; x48; xa4; xc6; xf4; x86; xbb; x16; xb6; x56; x2c; x73; xb4; x02; x0b; xf3; x04; x3e; x3a; x73;
  x1b; xce; x72; x1a; xe1; xb3; x03; xd9; x7e; x6d; x4c; x71; x81; xee; xbd; xb6; xc5; x7e; x27; x7d; x0e;
  x34; x95; x71; x14; xcb; xd6; xc7; x97; xfc; x9d; x95; xd8; xb5; x82; xd2; x25; x29; x20; x76; xd4; xee;
  xf5].
Proof. vm_compute. reflexivity. Qed.
Example wh_blocks : wh_digest [replicate 60 x61; replicate 61 x61] =
  [x24; x73; xd1; xa2; xac; xd9; x32; x77; x76; x6e; x5b; xff; x0f; x4b; xf8; xb8; x8d; xce; x57; x12; x29;
  x79; x80; x18; x12; x5a; x13; xd3; x11; x22; x19; x38; xd3; xb5; x50; xbf; xfd; x76; xb0; x50; x41; x9b;
  x39; x29; x14; xa0; xde; x7a; xd8; x34; x9b; x4f; xed; x05; x85; xd0; x5c; xe5; x9a; x3d; x81; x8d; xb7;
  xd4].
Proof. vm_compute. reflexivity. Qed.
Example gr_vector : gr_digest [abc] =
  [xf3; xc1; xbb; x19; xc0; x48; x80; x13; x26; xa7; xef; xbc; xf1; x6e; x3d; x78; x87; x44; x62; x49; x82;
  x9c; x37; x9e; x18; x40; xd1; xa3; xa1; xe7; xd4; xd2].
Proof. vm_compute. reflexivity. Qed.
Example gr_blocks : gr_digest [replicate 60 x61; replicate 61 x61] =
  [x7a; x63; x14; x3b; x78; xb4; x0e; x0d; x74; x4d; x80; xee; xc1; x3b; xad; x47; x0c; xda; xde; x57; x6e;
  xb4; x5d; x26; x5e; xa6; x74; x8b; x2f; xeb; x67; x72].
Proof. vm_compute. reflexivity. Qed.
Example md5_padding : md5_digest [replicate 55 x61] =
  [xef; x17; x72; xb6; xdf; xf9; xa1; x22; x35; x85; x52; x95; x4a; xd0; xdf; x65].
Proof. vm_compute. reflexivity. Qed.
Example sha1_padding : sha1_digest [replicate 56 x61] =
  [xc2; xdb; x33; x0f; x60; x83; x85; x4c; x99; xd4; xb5; xbf; xb6; xe8; xf2; x9f; x20; x1b; xe6; x99].
Proof. vm_compute. reflexivity. Qed.
Example gr_empty : gr_digest [] =
  [x1a; x52; xd1; x1d; x55; x00; x39; xbe; x16; x10; x7f; x9c; x58; xdb; x9e; xbc; xc4; x17; xf1; x6f; x73;
  x6a; xdb; x25; x02; x56; x71; x19; xf0; x08; x34; x67].
Proof. vm_compute. reflexivity. Qed.

(** ** The outputs *)
Lemma foldl_length {B} (f : list N → B → list N) (Hf : ∀ s x, length (f s x) = length s) l s :
  length (foldl f s l) = length s.
Proof. revert s. induction l as [|x l IH]; intros s; [done|]. cbn [foldl]. by rewrite IH, Hf. Qed.
Lemma add32_length s s' : length s' = length s → length (add32 s s') = length s.
Proof. intros Hs. unfold add32. rewrite zip_with_length. lia. Qed.
Lemma concat_length w (g : N → bytes) (Hg : ∀ x, length (g x) = w) l : length (concat (g <$> l)) = length l * w.
Proof. induction l as [|x l IH]; [done|]. rewrite fmap_cons. cbn [concat length]. rewrite app_length, Hg, IH. lia. Qed.
Lemma be_bytes_length w x : length (be_bytes w x) = w.
Proof. unfold be_bytes. by rewrite reverse_length, le_bytes_length. Qed.
Lemma md_digest_length (q : nat) (block : list N → bytes → list N) (w : nat) (g : N → bytes) len init cs
    (Hb : ∀ s b, length (block s b) = length s) (Hg : ∀ x, length (g x) = w) : length init = q →
  length (concat (g <$> md_close 64 block len (foldl (buf_write 64 block) (buf_new init) cs))) = q * w.
Proof.
  intros Hi. rewrite (concat_length w) by done. f_equal.
  apply (md_close_inv 64 block (λ l : list N, length l = q)); [intros a b Ha; by rewrite Hb|].
  apply (buf_state_inv (λ l : list N, length l = q)); [intros a b Ha; by rewrite Hb|done].
Qed.
Lemma md4_block_length s b : length (md4_block s b) = length s.
Proof.
  apply add32_length, foldl_length. intros s' [[k g] r]. by destruct s' as [|? [|? [|? [|? [|? ?]]]]].
Qed.
Lemma md5_block_length s b : length (md5_block s b) = length s.
Proof. apply add32_length, foldl_length. intros s' i. by destruct s' as [|? [|? [|? [|? [|? ?]]]]]. Qed.
Lemma sha1_block_length s b : length (sha1_block s b) = length s.
Proof. apply add32_length, foldl_length. intros s' [i x]. by destruct s' as [|? [|? [|? [|? [|? [|? ?]]]]]]. Qed.
Lemma rmd_steps_length left m l s : length (foldl (rmd_step left m) s l) = length s.
Proof. apply foldl_length. intros s' i. by destruct s' as [|? [|? [|? [|? [|? [|? ?]]]]]]. Qed.
Lemma rmd160_block_length s b : length (rmd160_block s b) = length s.
Proof.
  unfold rmd160_block. cbv zeta. generalize (foldl (rmd_step true (le_words b)) s (seq 0 80)), (foldl (rmd_step false (le_words b)) s (seq 0 80)).
  intros l r. by repeat (case_match; try done).
Qed.
Lemma rmd320_block_length s b : length (rmd320_block s b) = length s.
Proof.
  unfold rmd320_block. apply add32_length.
  assert (∀ (l : list (nat * nat)) p, length (foldl (rmd320_round (le_words b)) p l).1 = length p.1 ∧
    length (foldl (rmd320_round (le_words b)) p l).2 = length p.2) as Hr.
  { induction l as [|[k i] l IH]; intros p; [done|]. cbn [foldl]. destruct (IH (rmd320_round (le_words b) p (k, i))) as [H1 H2].
    rewrite H1, H2. unfold rmd320_round. cbn [fst snd]. by rewrite !insert_length, !rmd_steps_length. }
  rewrite app_length. destruct (Hr [(0, 1); (1, 3); (2, 0); (3, 2); (4, 4)] (take 5 s, drop 5 s)) as [-> ->].
  cbn [fst snd]. rewrite take_length, drop_length. lia.
Qed.
Lemma md2_pass_length x t : length (md2_pass x t).1 = length x.
Proof.
  unfold md2_pass. cbn [fst]. rewrite reverse_length.
  assert (∀ l a, length (foldl (λ (a : list N * N) y, let z := N.lxor y (lane md2_s (N.to_nat a.2)) in (z :: a.1, z)) a l).1 = length l + length a.1) as Hl.
  { induction l as [|y l IH]; intros a; [done|]. cbn [foldl]. rewrite IH. cbn [fst length]. lia. }
  rewrite Hl. cbn [fst length]. lia.
Qed.
Lemma md2_mix_length x b : length x = 16 → length (md2_mix x b) = 16.
Proof.
  intros Hx. unfold md2_mix. rewrite take_length.
  assert (∀ (l : list nat) (a : list N * N),
    length (foldl (λ a j, let r := md2_pass a.1 a.2 in (r.1, ((r.2 + N.of_nat j) mod 256)%N)) a l).1 = length a.1) as Hl.
  { induction l as [|y l IH]; intros a; [done|]. cbn [foldl]. rewrite IH. cbn [fst]. apply md2_pass_length. }
  rewrite Hl. cbn [fst]. rewrite app_length. lia.
Qed.
Lemma md2_digest_length cs : length (md2_digest cs) = 16.
Proof.
  unfold md2_digest, md2_finish. rewrite fmap_length. apply md2_mix_length. cbn [md2_block fst]. apply md2_mix_length.
  by apply (buf_state_inv (λ p : list N * list N, length p.1 = 16)); [intros a b Ha; apply md2_mix_length|].
Qed.
Lemma xors_length a b : length (xors a b) = 64.
Proof. unfold xors. by rewrite fmap_length, seq_length. Qed.
Lemma wh_digest_length cs : length (wh_digest cs) = 64.
Proof. unfold wh_digest, wh_finish. rewrite fmap_length. unfold md_close. destruct (_ <? _); apply xors_length. Qed.
Lemma gr_digest_length cs : length (gr_digest cs) = 32.
Proof. unfold gr_digest, gr_finish. rewrite fmap_length, drop_length, xors_length. done. Qed.

Theorem digests_length n cs :
  md2 n cs = Ok (resize n x00 (md2_digest cs)) ∧ length (md2_digest cs) = 16 ∧
  md4 n cs = Ok (resize n x00 (md4_digest cs)) ∧ length (md4_digest cs) = 16 ∧
  md5 n cs = Ok (resize n x00 (md5_digest cs)) ∧ length (md5_digest cs) = 16 ∧
  sha1 n cs = Ok (resize n x00 (sha1_digest cs)) ∧ length (sha1_digest cs) = 20 ∧
  ripemd160 n cs = Ok (resize n x00 (rmd160_digest cs)) ∧ length (rmd160_digest cs) = 20 ∧
  ripemd320 n cs = Ok (resize n x00 (rmd320_digest cs)) ∧ length (rmd320_digest cs) = 40 ∧
  whirlpool n cs = Ok (resize n x00 (wh_digest cs)) ∧ length (wh_digest cs) = 64 ∧
  groestl n cs = Ok (resize n x00 (gr_digest cs)) ∧ length (gr_digest cs) = 32.
Proof.
  do 7 (split; [apply finalize_digest_spec|]; split;
    [try apply md2_digest_length; try apply wh_digest_length;
     try (apply (md_digest_length 4 _ 4); [apply md4_block_length|apply le_bytes_length|done]);
     try (apply (md_digest_length 4 _ 4); [apply md5_block_length|apply le_bytes_length|done]);
     try (apply (md_digest_length 5 _ 4); [apply sha1_block_length|apply be_bytes_length|done]);
     try (apply (md_digest_length 5 _ 4); [apply rmd160_block_length|apply le_bytes_length|done]);
     try (apply (md_digest_length 10 _ 4); [apply rmd320_block_length|apply le_bytes_length|done])|]).
  split; [apply finalize_digest_spec|apply gr_digest_length].
Qed.
Theorem digests_concat n cs :
  md2 n cs = md2 n [concat cs] ∧ md4 n cs = md4 n [concat cs] ∧ md5 n cs = md5 n [concat cs] ∧
  sha1 n cs = sha1 n [concat cs] ∧ ripemd160 n cs = ripemd160 n [concat cs] ∧ ripemd320 n cs = ripemd320 n [concat cs] ∧
  whirlpool n cs = whirlpool n [concat cs] ∧ groestl n cs = groestl n [concat cs].
Proof.
  unfold md2, md4, md5, sha1, ripemd160, ripemd320, whirlpool, groestl, md2_digest, md4_digest, md5_digest, sha1_digest,
    rmd160_digest, rmd320_digest, wh_digest, gr_digest.
  rewrite !buf_concat by lia. cbn [concat]. rewrite !app_nil_r. done.
Qed.

(** ** Two implementations of one function *)
Lemma rust_sha2_eq n cs : rust_sha2 n cs = sha256 n cs.
Proof.
  unfold rust_sha2, sha256. rewrite (finalize_digest_spec n _). by rewrite (finalize_sha256_spec n _ (sha256_digest_length cs)).
Qed.
Lemma kc_digest_cut delim n cs : n ≤ 32 → finalize_digest n (kc_digest delim cs 32) = Ok (kc_digest delim cs n).
Proof.
  intros Hn. rewrite (finalize_digest_spec n _). f_equal. rewrite resize_le by (rewrite kc_digest_length; lia).
  symmetry. by apply kc_digest_prefix.
Qed.
Lemma kc_digest_pad delim n cs : 32 ≤ n →
  finalize_digest n (kc_digest delim cs 32) = Ok (take 32 (kc_digest delim cs n) ++ replicate (n - 32) x00).
Proof.
  intros Hn. rewrite (finalize_digest_spec n _). f_equal. rewrite resize_ge by (rewrite kc_digest_length; lia).
  rewrite kc_digest_length. f_equal. by apply kc_digest_prefix.
Qed.
Lemma blake_64 cs : blake2b_rfc 64 cs = blake2b512 64 cs.
Proof.
  destruct (blake_length 64 cs) as (H1 & _ & H2 & H3). destruct (H1 ltac:(lia)) as [-> _]. rewrite H2.
  by rewrite (resize_all_alt (bl_digest 64 cs) 64 x00).
Qed.
