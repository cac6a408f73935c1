(** Constants of the trigonometric functions: /repo/dpm/detail/fconst.hpp as bit patterns (nearest double of the decimal literal;
    for float the nearest float of that double, since the initializer is T{double literal}).  Index 0 is the first array element. *)
From Verif Require Import Base.
Open Scope Z_scope.

Definition c_pio32 (w : Z) : Z := if w =? 32 then 0x3dc90fdb else 0x3fb921fb54442d18.  (* 17-18: pio32 *)
Definition c_pio4 (w : Z) : Z := if w =? 32 then 0x3f490fdb else 0x3fe921fb54442d18.  (* 19-20: pio4 *)
Definition c_pio2 (w : Z) : Z := if w =? 32 then 0x3fc90fdb else 0x3ff921fb54442d18.  (* 21-22: pio2 *)
Definition c_tan3pio8 (w : Z) : Z := if w =? 32 then 0x401a827a else 0x4003504f333f9de6.  (* 23-24: tan3pio8 *)
Definition c_five_eights (w : Z) : Z := if w =? 32 then 0x3f200000 else 0x3fe4000000000000.  (* 33-34: five_eights *)
Definition c_half (w : Z) : Z := if w =? 32 then 0x3f000000 else 0x3fe0000000000000.  (* 37-38: half *)
Definition c_mhalf (w : Z) : Z := if w =? 32 then 0xbf000000 else 0xbfe0000000000000.  (* -half *)
Definition c_p66 (w : Z) : Z := if w =? 32 then 0x3f28f5c3 else 0x3fe51eb851eb851f.  (* 39-40: p66 *)
Definition c_two (w : Z) : Z := if w =? 32 then 0x40000000 else 0x4000000000000000.  (* 43-44: two *)
Definition c_asin_pmin (w : Z) : Z := if w =? 32 then 0x38d1b717 else 0x3e45798ee2308c3a.  (* 111: asin_pmin *)
Definition c_asin_off (w : Z) : Z := if w =? 32 then 0x248d3132 else 0x3c91a62633145c07.  (* 113: asin_off *)
Definition c_asin_off2 (w : Z) : Z := if w =? 32 then 0x240d3132 else 0x3c81a62633145c07.  (* atan.cpp 47: asin_off * half *)
Definition c_oflow (w : Z) : Z := if w =? 32 then 0x4a800000 else 0x4320000000000000.  (* cvt.hpp 13-18, 25-30, 205-210, 217-222: cvt_has_overflow *)
(** fconst.hpp 79-80: dp_sincos *)
Definition dp_sincos_f32 : list Z := [0xbf490fda; 0xb3222168; 0xa74234c5].
Definition dp_sincos_f64 : list Z := [0xbfe921fb40000000; 0xbe64442d00000000; 0xbce8469898cc5170].
Definition dp_sincos (w : Z) : list Z := if w =? 32 then dp_sincos_f32 else dp_sincos_f64.
(** 82-87: sincof *)
Definition sincof_f32 : list Z := [0x2f2ec7e9; 0xb2d72f2d; 0x3638ef1b; 0xb9500d01; 0x3c088889; 0xbe2aaaab].
Definition sincof_f64 : list Z := [0x3de5d8fd1fd19ccd; 0xbe5ae5e5a9291f5d; 0x3ec71de3567d48a1; 0xbf2a01a019bfdf03; 0x3f8111111110f7d0; 0xbfc5555555555548].
Definition sincof (w : Z) : list Z := if w =? 32 then sincof_f32 else sincof_f64.
(** 88-93: coscof *)
Definition coscof_f32 : list Z := [0xad47d24d; 0x310f74ec; 0xb493f27c; 0x37d00d01; 0xbab60b61; 0x3d2aaaab].
Definition coscof_f64 : list Z := [0xbda8fa49a0861a9b; 0x3e21ee9d7b4e3f05; 0xbe927e4f7eac4bc6; 0x3efa01a019c844f5; 0xbf56c16c16c14f91; 0x3fa555555555554b].
Definition coscof (w : Z) : list Z := if w =? 32 then coscof_f32 else coscof_f64.
(** 95-96: tancof *)
Definition tancof_f32 : list Z := [0x3f800000; 0x3eaaaaab; 0x3e088889; 0x3d5d0c05; 0x3cb4e054].
Definition tancof_f64 : list Z := [0x3ff0000000000000; 0x3fd555555553d022; 0x3fc111111ce442c1; 0x3faba180a6bbdecd; 0x3f969c0a88a0b71f].
Definition tancof (w : Z) : list Z := if w =? 32 then tancof_f32 else tancof_f64.
(** 98-99: asin_r *)
Definition asin_r_f32 : list Z := [0x3b427e1d; 0xbf103c93; 0x40deffae; 0xc1cc8d55; 0x41e44b12].
Definition asin_r_f64 : list Z := [0x3f684fc3988e9f08; 0xbfe2079259f9290f; 0x401bdff5baf33e6a; 0xc03991aaac01ab68; 0x403c896240f3081d].
Definition asin_r (w : Z) : list Z := if w =? 32 then asin_r_f32 else asin_r_f64.
(** 100-101: asin_s *)
Definition asin_s_f32 : list Z := [0x3f800000; 0xc1af9516; 0x431310cd; 0xc3bff045; 0x43ab384e].
Definition asin_s_f64 : list Z := [0x3ff0000000000000; 0xc035f2a2b6bf5d8c; 0x40626219af6a7f42; 0xc077fe08959063ee; 0x40756709b0b644be].
Definition asin_s (w : Z) : list Z := if w =? 32 then asin_s_f32 else asin_s_f64.
(** 102-103: asin_p *)
Definition asin_p_f32 : list Z := [0x3b8b5cd8; 0xbf1a1a0a; 0x40ae3a59; 0xc182198f; 0x419c803f; 0xc1032b60].
Definition asin_p_f64 : list Z := [0x3f716b9b0bd48ad3; 0xbfe34341333e5c16; 0x4015c74b178a2dd9; 0xc0304331de27907b; 0x40339007da779259; 0xc020656c06ceafd5].
Definition asin_p (w : Z) : list Z := if w =? 32 then asin_p_f32 else asin_p_f64.
(** 104-105: asin_q *)
Definition asin_q_f32 : list Z := [0x3f800000; 0xc16bdac8; 0x428cfe01; 0xc3132ddb; 0x430b82b4; 0xc244c110].
Definition asin_q_f64 : list Z := [0x3ff0000000000000; 0xc02d7b590b5e0eab; 0x40519fc025fe9054; 0xc06265bb6d3576d7; 0x4061705684ffbf9d; 0xc04898220a3607ac].
Definition asin_q (w : Z) : list Z := if w =? 32 then asin_q_f32 else asin_q_f64.
(** 106-107: atan_q *)
Definition atan_q_f32 : list Z := [0x3f800000; 0x41c6de23; 0x432506ea; 0x43d870c7; 0x43f2b1f9; 0x43428cf8].
Definition atan_q_f64 : list Z := [0x3ff0000000000000; 0x4038dbc45b14603c; 0x4064a0dd43b8fa25; 0x407b0e18d2e2be3b; 0x407e563f13b049ea; 0x4068519efbbd62ec].
Definition atan_q (w : Z) : list Z := if w =? 32 then atan_q_f32 else atan_q_f64.
(** 108-109: atan_p *)
Definition atan_p_f32 : list Z := [0xbf6003fd; 0xc18142a3; 0xc2960462; 0xc2f5c5f9; 0xc281b350].
Definition atan_p_f64 : list Z := [0xbfec007fa1f72594; 0xc03028545b6b807a; 0xc052c08c36880273; 0xc05eb8bf2d05ba25; 0xc0503669fd28ec8e].
Definition atan_p (w : Z) : list Z := if w =? 32 then atan_p_f32 else atan_p_f64.
Close Scope Z_scope.
