(** The lookup tables and coefficients of the logarithms as bit patterns, generated from /repo/dpm/detail/fconst.cpp (tables) and
    /repo/dpm/detail/fconst.hpp 115-167 (coefficients, ln2 line 25).  The decimal and hexadecimal literals were rounded to nearest by the generator. *)
From Coq Require Import ZArith List.
Import ListNotations.
Open Scope Z_scope.

(** fconst.cpp 9-27 *)
Definition logtab_f32 : list Z :=
  [0x3fb30f64; 0xbeabdfbc; 0x3fab8f6a; 0xbe95f785; 0x3fa4a9d0; 0xbe80f574;
   0x3f9e4cae; 0xbe598ec5; 0x3f9868c8; 0xbe32ba78; 0x3f92f114; 0xbe0d515e;
   0x3f8dda52; 0xbdd273b6; 0x3f891ac8; 0xbd8cb9e3; 0x3f84a9fa; 0xbd1297a2;
   0x3f800000; 0x0; 0x3f730468; 0x3d552d53; 0x3f652599; 0x3de2f29d;
   0x3f5901b3; 0x3e29372c; 0x3f4e168b; 0x3e5e1430; 0x3f443730; 0x3e882c5e;
   0x3f3b3ee8; 0x3ea02183].

(** fconst.cpp 29-159 *)
Definition logtab_f64 : list Z :=
  [0x3ff6a133d0dec120; 0xbfd62fe995eb963a; 0x3ff6815f2f3e42ed; 0xbfd5d5a48dad6b67; 0x3ff661e39be1ac9e; 0xbfd57bde257d2769;
   0x3ff642bfa30ac371; 0xbfd52294fbf2af55; 0x3ff623f1d916f323; 0xbfd4c9c7b598aa38; 0x3ff60578da220f65; 0xbfd47174fc5ff560;
   0x3ff5e75349dea571; 0xbfd4199b7fa7b5ca; 0x3ff5c97fd387a75a; 0xbfd3c239f48cfb99; 0x3ff5abfd2981f200; 0xbfd36b4f154d2aeb;
   0x3ff58eca051dc99c; 0xbfd314d9a0ff32fb; 0x3ff571e526d9df12; 0xbfd2bed85cca3cff; 0x3ff5554d555b3fcb; 0xbfd2694a11421af9;
   0x3ff539015e2a20cd; 0xbfd2142d8d014fb2; 0x3ff51d0014ee0164; 0xbfd1bf81a2c77776; 0x3ff50148538cd9ee; 0xbfd16b452a39c6a4;
   0x3ff4e5d8f9f698a1; 0xbfd11776ffa6c67e; 0x3ff4cab0edca66be; 0xbfd0c416035020e0; 0x3ff4afcf1a9db874; 0xbfd071211aa10fda;
   0x3ff495327136e16f; 0xbfd01e972e293b1b; 0x3ff47ad9e84af28f; 0xbfcf98ee587fd434; 0x3ff460c47b39ae15; 0xbfcef5800ad716fb;
   0x3ff446f12b278001; 0xbfce52e160484698; 0x3ff42d5efdd720ec; 0xbfcdb1104b19352e; 0x3ff4140cfe001a0f; 0xbfcd100ac59e0bd6;
   0x3ff3fafa3b421f69; 0xbfcc6fced287c3bd; 0x3ff3e225c9c8ece5; 0xbfcbd05a7b317c29; 0x3ff3c98ec29a211a; 0xbfcb31abd229164f;
   0x3ff3b13442a413fe; 0xbfca93c0edadb0a3; 0x3ff399156baa3c54; 0xbfc9f697ee30d7dd; 0x3ff38131639b4cdb; 0xbfc95a2efa9aa40a;
   0x3ff36987540fbf53; 0xbfc8be843d796044; 0x3ff352166b648f61; 0xbfc82395ecc477ed; 0x3ff33adddb3eb575; 0xbfc7896240966422;
   0x3ff323dcd99fc1d3; 0xbfc6efe77aca8c55; 0x3ff30d129fefc7d2; 0xbfc65723e117ec5c; 0x3ff2f67e6b72fe7d; 0xbfc5bf15c0955706;
   0x3ff2e01f7cf8b187; 0xbfc527bb6c111da1; 0x3ff2c9f518ddc86e; 0xbfc491133c939f8f; 0x3ff2b3fe86e5f413; 0xbfc3fb1b90c7fc58;
   0x3ff29e3b1211b25c; 0xbfc365d2cc485f8d; 0x3ff288aa08b373cf; 0xbfc2d13758970de7; 0x3ff2734abcaa8467; 0xbfc23d47a721fd47;
   0x3ff25e1c82459b81; 0xbfc1aa0229f25ec2; 0x3ff2491eb1ad59c5; 0xbfc117655ddebc3b; 0x3ff23450a54048b5; 0xbfc0856fbf83ab6b;
   0x3ff21fb1bb09e578; 0xbfbfe83fabbaa106; 0x3ff20b415346d8f7; 0xbfbec6e8507a56cd; 0x3ff1f6fed179a1ac; 0xbfbda6d68c7cc2ea;
   0x3ff1e2e99b93c7b3; 0xbfbc88078462be0c; 0x3ff1cf011a7a882a; 0xbfbb6a786a423565; 0x3ff1bb44b97dba5a; 0xbfba4e2676ac7f85;
   0x3ff1a7b3e66cdd4f; 0xbfb9330eea777e76; 0x3ff1944e11dc56cd; 0xbfb8192f134d5ad9; 0x3ff18112aebb1a6e; 0xbfb70084464f0538;
   0x3ff16e013231b7e9; 0xbfb5e90bdec5cb1f; 0x3ff15b1913f156cf; 0xbfb4d2c3433c5536; 0x3ff14859cdedde13; 0xbfb3bda7e219879a;
   0x3ff135c2dc68cfa4; 0xbfb2a9b732d27194; 0x3ff12353bdb01684; 0xbfb196eeb2b10807; 0x3ff1110bf25b85b4; 0xbfb0854be8ef8a7e;
   0x3ff0feeafd2f8577; 0xbfaee998cb277432; 0x3ff0ecf062c51c3b; 0xbfaccadb79919fb9; 0x3ff0db1baa076c8b; 0xbfaaae5b1d8618b0;
   0x3ff0c96c5bb3048e; 0xbfa89413015d7442; 0x3ff0b7e20263e070; 0xbfa67bfe7bf158de; 0x3ff0a67c2acd0ce3; 0xbfa46618f83941be;
   0x3ff0953a6391e982; 0xbfa2525df1b0618a; 0x3ff0841c3caea380; 0xbfa040c8e2f77c6a; 0x3ff07321489b13ea; 0xbf9c62aad39f738a;
   0x3ff062491aee9904; 0xbf9847fe3bdead9c; 0x3ff05193497a7cc5; 0xbf943183683400ac; 0x3ff040ff6b5f5e9f; 0xbf901f31c4e1d544;
   0x3ff0308d19aa6127; 0xbf882201d1e6b69a; 0x3ff0203beedb0c67; 0xbf800dd0f3e1bfd6; 0x3ff010037d38bcc2; 0xbf6ff6fe1feb4e53;
   0x3ff0000000000000; 0x0; 0x3fefc06d493cca10; 0x3f7fe91885ec8e20; 0x3fef81e6ac3b918f; 0x3f8fc516f716296d;
   0x3fef44546ef18996; 0x3f97bb4dd70a015b; 0x3fef07b10382c84b; 0x3f9f84c99b34b674; 0x3feecbf7070e59d4; 0x3fa39f9ce4fb2d71;
   0x3fee91213f715939; 0x3fa7756c0fd22e78; 0x3fee572a9a75f7b7; 0x3fab43ee82db8f3a; 0x3fee1e0e2c530207; 0x3faf0b3fced60034;
   0x3fede5c72d8a8be3; 0x3fb165bd78d4878e; 0x3fedae50fa5658cc; 0x3fb3425d2715ebe6; 0x3fed77a71145a2da; 0x3fb51b8bd91b7915;
   0x3fed41c51166623e; 0x3fb6f15632c76a47; 0x3fed0ca6ba0bb29f; 0x3fb8c3c88ecbe503; 0x3fecd847e8e59681; 0x3fba92ef077625da;
   0x3feca4a499693e00; 0x3fbc5ed5745fa006; 0x3fec71b8e399e821; 0x3fbe27876de1c993; 0x3fec3f80faf19077; 0x3fbfed104fce4cdc;
   0x3fec0df92dc2b0ec; 0x3fc0d7bd9c17d78b; 0x3febdd1de3cbb542; 0x3fc1b76986cef97b; 0x3febaceb9e1007a3; 0x3fc295913d24f750;
   0x3feb7d5ef543e55e; 0x3fc37239fa295d17; 0x3feb4e749977d953; 0x3fc44d68dd78714b; 0x3feb20295155478e; 0x3fc52722ebe5d780;
   0x3feaf279f8e82be2; 0x3fc5ff6d12671f98; 0x3feac5638197fdf3; 0x3fc6d64c2389484b; 0x3fea98e2f102e087; 0x3fc7abc4da40fdda;
   0x3fea6cf5606d05c1; 0x3fc87fdbda1e8452; 0x3fea4197fc04d746; 0x3fc95295b06a5f37; 0x3fea16c80293dc01; 0x3fca23f6d34abbc5;
   0x3fe9ec82c4dc5bc9; 0x3fcaf403a28e04f2; 0x3fe9c2c5a491f534; 0x3fcbc2c06a85721a; 0x3fe9998e1480b618; 0x3fcc903161240163;
   0x3fe970d9977c6c2d; 0x3fcd5c5aa93287eb; 0x3fe948a5c023d212; 0x3fce274051823fa9; 0x3fe920f0303d6809; 0x3fcef0e656300c16;
   0x3fe8f9b698a98b45; 0x3fcfb9509f05aa2a; 0x3fe8d2f6b81726f6; 0x3fd04041821f37af; 0x3fe8acae5bb55bad; 0x3fd0a340a49b3029;
   0x3fe886db5d9275b8; 0x3fd105a7918a126d; 0x3fe8617ba567c13c; 0x3fd1677819812b84; 0x3fe83c8d27487800; 0x3fd1c8b405b40c0e;
   0x3fe8180de3c5dbe7; 0x3fd2295d16cfa6b1; 0x3fe7f3fbe71cdb71; 0x3fd28975066318a2; 0x3fe7d055498071c1; 0x3fd2e8fd855d86fc;
   0x3fe7ad182e54f65a; 0x3fd347f83d605e59; 0x3fe78a42c3c90125; 0x3fd3a666d1244588; 0x3fe767d342f76944; 0x3fd4044adb6f8ec4;
   0x3fe745c7ef26b00a; 0x3fd461a5f077558c; 0x3fe7241f15769d0f; 0x3fd4be799e20b9c8; 0x3fe702d70d396e41; 0x3fd51ac76a6b79df;
   0x3fe6e1ee3700cd11; 0x3fd57690d5744a45; 0x3fe6c162fc9cbe02; 0x3fd5d1d758e45217].

(** fconst.cpp 161-179 *)
Definition log2tab_f32 : list Z :=
  [0x3fb30f64; 0xbef7f633; 0x3fab8f6a; 0xbed85b42; 0x3fa4a9d0; 0xbeba0c58;
   0x3f9e4cae; 0xbe9cef49; 0x3f9868c8; 0xbe80ece0; 0x3f92f114; 0xbe4be0e9;
   0x3f8dda52; 0xbe17cf1d; 0x3f891ac8; 0xbdcb065e; 0x3f84a9fa; 0xbd537cee;
   0x3f800000; 0x0; 0x3f730468; 0x3d99c655; 0x3f652599; 0x3e23b54b;
   0x3f5901b3; 0x3e74205a; 0x3f4e168b; 0x3ea03230; 0x3f443730; 0x3ec474e1;
   0x3f3b3ee8; 0x3ee70522].

(** fconst.cpp 181-247 *)
Definition log2tab_f64 : list Z :=
  [0x3ff724286bb1acf8; 0xbfe1095feecdb000; 0x3ff6e1f766d2cca1; 0xbfe08494bd76d000; 0x3ff6a13d0e30d48a; 0xbfe00143aee8f800;
   0x3ff661ec32d06c85; 0xbfdefec5360b4000; 0x3ff623fa951198f8; 0xbfddfdd91ab7e000; 0x3ff5e75ba4cf026c; 0xbfdcffae0cc79000;
   0x3ff5ac055a214fb8; 0xbfdc043811fda000; 0x3ff571ed0f166e1e; 0xbfdb0b67323ae000; 0x3ff53909590bf835; 0xbfda152f5a2db000;
   0x3ff5014fed61addd; 0xbfd9217f5af86000; 0x3ff4cab88e487bd0; 0xbfd8304db0719000; 0x3ff49539b4334fee; 0xbfd74189f9a9e000;
   0x3ff460cbdfafd569; 0xbfd6552bb5199000; 0x3ff42d664ee4b953; 0xbfd56b23a29b1000; 0x3ff3fb01111dd8a6; 0xbfd483650f5fa000;
   0x3ff3c995b70c5836; 0xbfd39de937f6a000; 0x3ff3991c4ab6fd4a; 0xbfd2baa1538d6000; 0x3ff3698e0ce099b5; 0xbfd1d98340ca4000;
   0x3ff33ae48213e7b2; 0xbfd0fa853a40e000; 0x3ff30d191985bdb1; 0xbfd01d9c32e73000; 0x3ff2e025cab271d7; 0xbfce857da2fa6000;
   0x3ff2b404cf13cd82; 0xbfccd3c8633d8000; 0x3ff288b02c7ccb50; 0xbfcb26034c14a000; 0x3ff25e2263944de5; 0xbfc97c1c2f4fe000;
   0x3ff234563d8615b1; 0xbfc7d6023f800000; 0x3ff20b46e33eaf38; 0xbfc633a71a05e000; 0x3ff1e2eefdcda3dd; 0xbfc494f5e9570000;
   0x3ff1bb4a580b3930; 0xbfc2f9e424e0a000; 0x3ff19453847f2200; 0xbfc162595afdc000; 0x3ff16e06c0d5d73c; 0xbfbf9c9a75bd8000;
   0x3ff1485f47b7e4c2; 0xbfbc7b575bf9c000; 0x3ff12358ad0085d1; 0xbfb960c60ff48000; 0x3ff0fef00f532227; 0xbfb64ce247b60000;
   0x3ff0db2077d03a8f; 0xbfb33f78b2014000; 0x3ff0b7e6d65980d9; 0xbfb0387d1a42c000; 0x3ff0953efe7b408d; 0xbfaa6f9208b50000;
   0x3ff07325cac53b83; 0xbfa47a954f770000; 0x3ff05197e40d1b5c; 0xbf9d23a8c50c0000; 0x3ff03091c1208ea2; 0xbf916a2629780000;
   0x3ff0101025b37e21; 0xbf7720f8d8e80000; 0x3fefc07ef9caa76b; 0x3f86fe53b1500000; 0x3fef4465d3f6f184; 0x3fa11ccce10f8000;
   0x3feecc079f84107f; 0x3fac4dfc8c8b8000; 0x3fee573a99975ae8; 0x3fb3aa321e574000; 0x3fede5d6f0bd3de6; 0x3fb918a0d08b8000;
   0x3fed77b681ff38b3; 0x3fbe72e9da044000; 0x3fed0cb5724de943; 0x3fc1dcd2507f6000; 0x3feca4b2dc0e7563; 0x3fc476ab03dea000;
   0x3fec3f8ee8d6cb51; 0x3fc7074377e22000; 0x3febdd2b4f020c4c; 0x3fc98ede8ba94000; 0x3feb7d6c006015ca; 0x3fcc0db86ad2e000;
   0x3feb20366e2e338f; 0x3fce840aafcee000; 0x3feac57026295039; 0x3fd0790ab4678000; 0x3fea6d01bc2731dd; 0x3fd1ac056801c000;
   0x3fea16d3bc3ff18b; 0x3fd2db11d4fee000; 0x3fe9c2d14967fead; 0x3fd406464ec58000; 0x3fe970e4f47c9902; 0x3fd52dbe093af000;
   0x3fe920fb3982bcf2; 0x3fd651902050d000; 0x3fe8d30187f759f1; 0x3fd771d2cdeaf000; 0x3fe886e5ebb9f66d; 0x3fd88e9c857d9000;
   0x3fe83c97b658b994; 0x3fd9a80155e16000; 0x3fe7f405ffc61022; 0x3fdabe186ed3d000; 0x3fe7ad22181415ca; 0x3fdbd0f2aea0e000;
   0x3fe767dcf99eff8c; 0x3fdce0a43dbf4000].

(** fconst.hpp 115 *)
Definition logcoff_f64 : list Z :=
  [0xbfdffffffffffff7; 0x3fd55555555170d4; 0xbfd0000000399c27; 0x3fc999b2e90e94ca; 0xbfc554e550bd501e].

(** fconst.hpp 116 *)
Definition logcoff_f32 : list Z :=
  [0xbe80751a; 0x3eaabad8; 0xbefffff8].

(** fconst.hpp 135 *)
Definition log2coff_f64 : list Z :=
  [0xbfe71547652b8339; 0x3fdec709dc3a04be; 0xbfd7154764702ffb; 0x3fd2776c50034c48; 0xbfcec7b328ea92bc; 0x3fca6225e117f92e].

(** fconst.hpp 136 *)
Definition log2coff_f32 : list Z :=
  [0xbeb895b8; 0x3ef655fa; 0xbf38aa3d; 0x3fb8aa3b].

(** fconst.hpp 25 *)
Definition c_ln2 (w : Z) : Z := if w =? 32 then 0x3f317218 else 0x3fe62e42fefa39ef.
(** fconst.hpp 156 *)
Definition c_log10_2l (w : Z) : Z := if w =? 32 then 0x355427db else 0x3d59fef311f12b36.
(** fconst.hpp 158 *)
Definition c_log10_2h (w : Z) : Z := if w =? 32 then 0x3e9a2080 else 0x3fd34413509f6000.
(** fconst.hpp 160 *)
Definition c_ivln10 (w : Z) : Z := if w =? 32 then 0x3ede5bd9 else 0x3fdbcb7b1526e50e.
(** fconst.hpp 162 *)
Definition c_invln2l (w : Z) : Z := if w =? 32 then 0x2f382fe1 else 0x3de705fc2eefa200.
(** fconst.hpp 164 *)
Definition c_invln2h (w : Z) : Z := if w =? 32 then 0x3fb8aa3b else 0x3ff7154765200000.
Close Scope Z_scope.
