(** Literal tables of bits.cpp, generated from /repo/lib/bits.cpp. *)
From Coq Require Import NArith List.
Import ListNotations.
Local Open Scope N_scope.

(** models lib/bits.cpp:22-55, bits::lt_cnt, 256 entries *)
Definition tbl_lt_cnt : list N := [
  0; 1; 1; 2; 1; 2; 2; 3; 1; 2; 2; 3;
  2; 3; 3; 4; 1; 2; 2; 3; 2; 3; 3; 4;
  2; 3; 3; 4; 3; 4; 4; 5; 1; 2; 2; 3;
  2; 3; 3; 4; 2; 3; 3; 4; 3; 4; 4; 5;
  2; 3; 3; 4; 3; 4; 4; 5; 3; 4; 4; 5;
  4; 5; 5; 6; 1; 2; 2; 3; 2; 3; 3; 4;
  2; 3; 3; 4; 3; 4; 4; 5; 2; 3; 3; 4;
  3; 4; 4; 5; 3; 4; 4; 5; 4; 5; 5; 6;
  2; 3; 3; 4; 3; 4; 4; 5; 3; 4; 4; 5;
  4; 5; 5; 6; 3; 4; 4; 5; 4; 5; 5; 6;
  4; 5; 5; 6; 5; 6; 6; 7; 1; 2; 2; 3;
  2; 3; 3; 4; 2; 3; 3; 4; 3; 4; 4; 5;
  2; 3; 3; 4; 3; 4; 4; 5; 3; 4; 4; 5;
  4; 5; 5; 6; 2; 3; 3; 4; 3; 4; 4; 5;
  3; 4; 4; 5; 4; 5; 5; 6; 3; 4; 4; 5;
  4; 5; 5; 6; 4; 5; 5; 6; 5; 6; 6; 7;
  2; 3; 3; 4; 3; 4; 4; 5; 3; 4; 4; 5;
  4; 5; 5; 6; 3; 4; 4; 5; 4; 5; 5; 6;
  4; 5; 5; 6; 5; 6; 6; 7; 3; 4; 4; 5;
  4; 5; 5; 6; 4; 5; 5; 6; 5; 6; 6; 7;
  4; 5; 5; 6; 5; 6; 6; 7; 5; 6; 6; 7;
  6; 7; 7; 8
].

(** models lib/bits.cpp:59-68, bits::lt_deBruijn_to_idx, 64 entries *)
Definition tbl_lt_deBruijn_to_idx : list N := [
  0; 1; 2; 7; 3; 13; 8; 19; 4; 25; 14; 28;
  9; 34; 20; 40; 5; 17; 26; 38; 15; 46; 29; 48;
  10; 31; 35; 54; 21; 50; 41; 57; 63; 6; 12; 18;
  24; 27; 33; 39; 16; 37; 45; 47; 30; 53; 49; 56;
  62; 11; 23; 32; 36; 44; 52; 55; 61; 22; 43; 51;
  60; 42; 59; 58
].

(** models lib/bits.cpp:70-87, bits::lt_hi, 256 entries *)
Definition tbl_lt_hi : list N := [
  0; 0; 1; 1; 2; 2; 2; 2; 3; 3; 3; 3;
  3; 3; 3; 3; 4; 4; 4; 4; 4; 4; 4; 4;
  4; 4; 4; 4; 4; 4; 4; 4; 5; 5; 5; 5;
  5; 5; 5; 5; 5; 5; 5; 5; 5; 5; 5; 5;
  5; 5; 5; 5; 5; 5; 5; 5; 5; 5; 5; 5;
  5; 5; 5; 5; 6; 6; 6; 6; 6; 6; 6; 6;
  6; 6; 6; 6; 6; 6; 6; 6; 6; 6; 6; 6;
  6; 6; 6; 6; 6; 6; 6; 6; 6; 6; 6; 6;
  6; 6; 6; 6; 6; 6; 6; 6; 6; 6; 6; 6;
  6; 6; 6; 6; 6; 6; 6; 6; 6; 6; 6; 6;
  6; 6; 6; 6; 6; 6; 6; 6; 7; 7; 7; 7;
  7; 7; 7; 7; 7; 7; 7; 7; 7; 7; 7; 7;
  7; 7; 7; 7; 7; 7; 7; 7; 7; 7; 7; 7;
  7; 7; 7; 7; 7; 7; 7; 7; 7; 7; 7; 7;
  7; 7; 7; 7; 7; 7; 7; 7; 7; 7; 7; 7;
  7; 7; 7; 7; 7; 7; 7; 7; 7; 7; 7; 7;
  7; 7; 7; 7; 7; 7; 7; 7; 7; 7; 7; 7;
  7; 7; 7; 7; 7; 7; 7; 7; 7; 7; 7; 7;
  7; 7; 7; 7; 7; 7; 7; 7; 7; 7; 7; 7;
  7; 7; 7; 7; 7; 7; 7; 7; 7; 7; 7; 7;
  7; 7; 7; 7; 7; 7; 7; 7; 7; 7; 7; 7;
  7; 7; 7; 7
].

(** models lib/bits.cpp:89-155, bits::lo_set, 65 entries *)
Definition tbl_lo_set : list N := [
  0; 1; 3; 7; 15; 31; 63; 127; 255; 511; 1023; 2047;
  4095; 8191; 16383; 32767; 65535; 131071; 262143; 524287; 1048575; 2097151; 4194303; 8388607;
  16777215; 33554431; 67108863; 134217727; 268435455; 536870911; 1073741823; 2147483647; 4294967295; 8589934591; 17179869183; 34359738367;
  68719476735; 137438953471; 274877906943; 549755813887; 1099511627775; 2199023255551; 4398046511103; 8796093022207; 17592186044415; 35184372088831; 70368744177663; 140737488355327;
  281474976710655; 562949953421311; 1125899906842623; 2251799813685247; 4503599627370495; 9007199254740991; 18014398509481983; 36028797018963967; 72057594037927935; 144115188075855871; 288230376151711743; 576460752303423487;
  1152921504606846975; 2305843009213693951; 4611686018427387903; 9223372036854775807; 18446744073709551615
].

(** models lib/bits.cpp:157-223, bits::lo_unset, 65 entries *)
Definition tbl_lo_unset : list N := [
  18446744073709551615; 18446744073709551614; 18446744073709551612; 18446744073709551608; 18446744073709551600; 18446744073709551584; 18446744073709551552; 18446744073709551488; 18446744073709551360; 18446744073709551104; 18446744073709550592; 18446744073709549568;
  18446744073709547520; 18446744073709543424; 18446744073709535232; 18446744073709518848; 18446744073709486080; 18446744073709420544; 18446744073709289472; 18446744073709027328; 18446744073708503040; 18446744073707454464; 18446744073705357312; 18446744073701163008;
  18446744073692774400; 18446744073675997184; 18446744073642442752; 18446744073575333888; 18446744073441116160; 18446744073172680704; 18446744072635809792; 18446744071562067968; 18446744069414584320; 18446744065119617024; 18446744056529682432; 18446744039349813248;
  18446744004990074880; 18446743936270598144; 18446743798831644672; 18446743523953737728; 18446742974197923840; 18446741874686296064; 18446739675663040512; 18446735277616529408; 18446726481523507200; 18446708889337462784; 18446673704965373952; 18446603336221196288;
  18446462598732840960; 18446181123756130304; 18445618173802708992; 18444492273895866368; 18442240474082181120; 18437736874454810624; 18428729675200069632; 18410715276690587648; 18374686479671623680; 18302628885633695744; 18158513697557839872; 17870283321406128128;
  17293822569102704640; 16140901064495857664; 13835058055282163712; 9223372036854775808; 0
].

(** models lib/bits.cpp:225-291, bits::ps_overflow, 65 entries *)
Definition tbl_ps_overflow : list N := [
  9259542123273814144; 9187201950435737471; 9114861777597660798; 9042521604759584125; 8970181431921507452; 8897841259083430779; 8825501086245354106; 8753160913407277433; 8680820740569200760; 8608480567731124087; 8536140394893047414; 8463800222054970741;
  8391460049216894068; 8319119876378817395; 8246779703540740722; 8174439530702664049; 8102099357864587376; 8029759185026510703; 7957419012188434030; 7885078839350357357; 7812738666512280684; 7740398493674204011; 7668058320836127338; 7595718147998050665;
  7523377975159973992; 7451037802321897319; 7378697629483820646; 7306357456645743973; 7234017283807667300; 7161677110969590627; 7089336938131513954; 7016996765293437281; 6944656592455360608; 6872316419617283935; 6799976246779207262; 6727636073941130589;
  6655295901103053916; 6582955728264977243; 6510615555426900570; 6438275382588823897; 6365935209750747224; 6293595036912670551; 6221254864074593878; 6148914691236517205; 6076574518398440532; 6004234345560363859; 5931894172722287186; 5859553999884210513;
  5787213827046133840; 5714873654208057167; 5642533481369980494; 5570193308531903821; 5497853135693827148; 5425512962855750475; 5353172790017673802; 5280832617179597129; 5208492444341520456; 5136152271503443783; 5063812098665367110; 4991471925827290437;
  4919131752989213764; 4846791580151137091; 4774451407313060418; 4702111234474983745; 4629771061636907072
].

(** models lib/bits.cpp:293-429, bits::lt_sel, 2048 entries *)
Definition tbl_lt_sel : list N := [
  0; 0; 1; 0; 2; 0; 1; 0; 3; 0; 1; 0;
  2; 0; 1; 0; 4; 0; 1; 0; 2; 0; 1; 0;
  3; 0; 1; 0; 2; 0; 1; 0; 5; 0; 1; 0;
  2; 0; 1; 0; 3; 0; 1; 0; 2; 0; 1; 0;
  4; 0; 1; 0; 2; 0; 1; 0; 3; 0; 1; 0;
  2; 0; 1; 0; 6; 0; 1; 0; 2; 0; 1; 0;
  3; 0; 1; 0; 2; 0; 1; 0; 4; 0; 1; 0;
  2; 0; 1; 0; 3; 0; 1; 0; 2; 0; 1; 0;
  5; 0; 1; 0; 2; 0; 1; 0; 3; 0; 1; 0;
  2; 0; 1; 0; 4; 0; 1; 0; 2; 0; 1; 0;
  3; 0; 1; 0; 2; 0; 1; 0; 7; 0; 1; 0;
  2; 0; 1; 0; 3; 0; 1; 0; 2; 0; 1; 0;
  4; 0; 1; 0; 2; 0; 1; 0; 3; 0; 1; 0;
  2; 0; 1; 0; 5; 0; 1; 0; 2; 0; 1; 0;
  3; 0; 1; 0; 2; 0; 1; 0; 4; 0; 1; 0;
  2; 0; 1; 0; 3; 0; 1; 0; 2; 0; 1; 0;
  6; 0; 1; 0; 2; 0; 1; 0; 3; 0; 1; 0;
  2; 0; 1; 0; 4; 0; 1; 0; 2; 0; 1; 0;
  3; 0; 1; 0; 2; 0; 1; 0; 5; 0; 1; 0;
  2; 0; 1; 0; 3; 0; 1; 0; 2; 0; 1; 0;
  4; 0; 1; 0; 2; 0; 1; 0; 3; 0; 1; 0;
  2; 0; 1; 0; 0; 0; 0; 1; 0; 2; 2; 1;
  0; 3; 3; 1; 3; 2; 2; 1; 0; 4; 4; 1;
  4; 2; 2; 1; 4; 3; 3; 1; 3; 2; 2; 1;
  0; 5; 5; 1; 5; 2; 2; 1; 5; 3; 3; 1;
  3; 2; 2; 1; 5; 4; 4; 1; 4; 2; 2; 1;
  4; 3; 3; 1; 3; 2; 2; 1; 0; 6; 6; 1;
  6; 2; 2; 1; 6; 3; 3; 1; 3; 2; 2; 1;
  6; 4; 4; 1; 4; 2; 2; 1; 4; 3; 3; 1;
  3; 2; 2; 1; 6; 5; 5; 1; 5; 2; 2; 1;
  5; 3; 3; 1; 3; 2; 2; 1; 5; 4; 4; 1;
  4; 2; 2; 1; 4; 3; 3; 1; 3; 2; 2; 1;
  0; 7; 7; 1; 7; 2; 2; 1; 7; 3; 3; 1;
  3; 2; 2; 1; 7; 4; 4; 1; 4; 2; 2; 1;
  4; 3; 3; 1; 3; 2; 2; 1; 7; 5; 5; 1;
  5; 2; 2; 1; 5; 3; 3; 1; 3; 2; 2; 1;
  5; 4; 4; 1; 4; 2; 2; 1; 4; 3; 3; 1;
  3; 2; 2; 1; 7; 6; 6; 1; 6; 2; 2; 1;
  6; 3; 3; 1; 3; 2; 2; 1; 6; 4; 4; 1;
  4; 2; 2; 1; 4; 3; 3; 1; 3; 2; 2; 1;
  6; 5; 5; 1; 5; 2; 2; 1; 5; 3; 3; 1;
  3; 2; 2; 1; 5; 4; 4; 1; 4; 2; 2; 1;
  4; 3; 3; 1; 3; 2; 2; 1; 0; 0; 0; 0;
  0; 0; 0; 2; 0; 0; 0; 3; 0; 3; 3; 2;
  0; 0; 0; 4; 0; 4; 4; 2; 0; 4; 4; 3;
  4; 3; 3; 2; 0; 0; 0; 5; 0; 5; 5; 2;
  0; 5; 5; 3; 5; 3; 3; 2; 0; 5; 5; 4;
  5; 4; 4; 2; 5; 4; 4; 3; 4; 3; 3; 2;
  0; 0; 0; 6; 0; 6; 6; 2; 0; 6; 6; 3;
  6; 3; 3; 2; 0; 6; 6; 4; 6; 4; 4; 2;
  6; 4; 4; 3; 4; 3; 3; 2; 0; 6; 6; 5;
  6; 5; 5; 2; 6; 5; 5; 3; 5; 3; 3; 2;
  6; 5; 5; 4; 5; 4; 4; 2; 5; 4; 4; 3;
  4; 3; 3; 2; 0; 0; 0; 7; 0; 7; 7; 2;
  0; 7; 7; 3; 7; 3; 3; 2; 0; 7; 7; 4;
  7; 4; 4; 2; 7; 4; 4; 3; 4; 3; 3; 2;
  0; 7; 7; 5; 7; 5; 5; 2; 7; 5; 5; 3;
  5; 3; 3; 2; 7; 5; 5; 4; 5; 4; 4; 2;
  5; 4; 4; 3; 4; 3; 3; 2; 0; 7; 7; 6;
  7; 6; 6; 2; 7; 6; 6; 3; 6; 3; 3; 2;
  7; 6; 6; 4; 6; 4; 4; 2; 6; 4; 4; 3;
  4; 3; 3; 2; 7; 6; 6; 5; 6; 5; 5; 2;
  6; 5; 5; 3; 5; 3; 3; 2; 6; 5; 5; 4;
  5; 4; 4; 2; 5; 4; 4; 3; 4; 3; 3; 2;
  0; 0; 0; 0; 0; 0; 0; 0; 0; 0; 0; 0;
  0; 0; 0; 3; 0; 0; 0; 0; 0; 0; 0; 4;
  0; 0; 0; 4; 0; 4; 4; 3; 0; 0; 0; 0;
  0; 0; 0; 5; 0; 0; 0; 5; 0; 5; 5; 3;
  0; 0; 0; 5; 0; 5; 5; 4; 0; 5; 5; 4;
  5; 4; 4; 3; 0; 0; 0; 0; 0; 0; 0; 6;
  0; 0; 0; 6; 0; 6; 6; 3; 0; 0; 0; 6;
  0; 6; 6; 4; 0; 6; 6; 4; 6; 4; 4; 3;
  0; 0; 0; 6; 0; 6; 6; 5; 0; 6; 6; 5;
  6; 5; 5; 3; 0; 6; 6; 5; 6; 5; 5; 4;
  6; 5; 5; 4; 5; 4; 4; 3; 0; 0; 0; 0;
  0; 0; 0; 7; 0; 0; 0; 7; 0; 7; 7; 3;
  0; 0; 0; 7; 0; 7; 7; 4; 0; 7; 7; 4;
  7; 4; 4; 3; 0; 0; 0; 7; 0; 7; 7; 5;
  0; 7; 7; 5; 7; 5; 5; 3; 0; 7; 7; 5;
  7; 5; 5; 4; 7; 5; 5; 4; 5; 4; 4; 3;
  0; 0; 0; 7; 0; 7; 7; 6; 0; 7; 7; 6;
  7; 6; 6; 3; 0; 7; 7; 6; 7; 6; 6; 4;
  7; 6; 6; 4; 6; 4; 4; 3; 0; 7; 7; 6;
  7; 6; 6; 5; 7; 6; 6; 5; 6; 5; 5; 3;
  7; 6; 6; 5; 6; 5; 5; 4; 6; 5; 5; 4;
  5; 4; 4; 3; 0; 0; 0; 0; 0; 0; 0; 0;
  0; 0; 0; 0; 0; 0; 0; 0; 0; 0; 0; 0;
  0; 0; 0; 0; 0; 0; 0; 0; 0; 0; 0; 4;
  0; 0; 0; 0; 0; 0; 0; 0; 0; 0; 0; 0;
  0; 0; 0; 5; 0; 0; 0; 0; 0; 0; 0; 5;
  0; 0; 0; 5; 0; 5; 5; 4; 0; 0; 0; 0;
  0; 0; 0; 0; 0; 0; 0; 0; 0; 0; 0; 6;
  0; 0; 0; 0; 0; 0; 0; 6; 0; 0; 0; 6;
  0; 6; 6; 4; 0; 0; 0; 0; 0; 0; 0; 6;
  0; 0; 0; 6; 0; 6; 6; 5; 0; 0; 0; 6;
  0; 6; 6; 5; 0; 6; 6; 5; 6; 5; 5; 4;
  0; 0; 0; 0; 0; 0; 0; 0; 0; 0; 0; 0;
  0; 0; 0; 7; 0; 0; 0; 0; 0; 0; 0; 7;
  0; 0; 0; 7; 0; 7; 7; 4; 0; 0; 0; 0;
  0; 0; 0; 7; 0; 0; 0; 7; 0; 7; 7; 5;
  0; 0; 0; 7; 0; 7; 7; 5; 0; 7; 7; 5;
  7; 5; 5; 4; 0; 0; 0; 0; 0; 0; 0; 7;
  0; 0; 0; 7; 0; 7; 7; 6; 0; 0; 0; 7;
  0; 7; 7; 6; 0; 7; 7; 6; 7; 6; 6; 4;
  0; 0; 0; 7; 0; 7; 7; 6; 0; 7; 7; 6;
  7; 6; 6; 5; 0; 7; 7; 6; 7; 6; 6; 5;
  7; 6; 6; 5; 6; 5; 5; 4; 0; 0; 0; 0;
  0; 0; 0; 0; 0; 0; 0; 0; 0; 0; 0; 0;
  0; 0; 0; 0; 0; 0; 0; 0; 0; 0; 0; 0;
  0; 0; 0; 0; 0; 0; 0; 0; 0; 0; 0; 0;
  0; 0; 0; 0; 0; 0; 0; 0; 0; 0; 0; 0;
  0; 0; 0; 0; 0; 0; 0; 0; 0; 0; 0; 5;
  0; 0; 0; 0; 0; 0; 0; 0; 0; 0; 0; 0;
  0; 0; 0; 0; 0; 0; 0; 0; 0; 0; 0; 0;
  0; 0; 0; 0; 0; 0; 0; 6; 0; 0; 0; 0;
  0; 0; 0; 0; 0; 0; 0; 0; 0; 0; 0; 6;
  0; 0; 0; 0; 0; 0; 0; 6; 0; 0; 0; 6;
  0; 6; 6; 5; 0; 0; 0; 0; 0; 0; 0; 0;
  0; 0; 0; 0; 0; 0; 0; 0; 0; 0; 0; 0;
  0; 0; 0; 0; 0; 0; 0; 0; 0; 0; 0; 7;
  0; 0; 0; 0; 0; 0; 0; 0; 0; 0; 0; 0;
  0; 0; 0; 7; 0; 0; 0; 0; 0; 0; 0; 7;
  0; 0; 0; 7; 0; 7; 7; 5; 0; 0; 0; 0;
  0; 0; 0; 0; 0; 0; 0; 0; 0; 0; 0; 7;
  0; 0; 0; 0; 0; 0; 0; 7; 0; 0; 0; 7;
  0; 7; 7; 6; 0; 0; 0; 0; 0; 0; 0; 7;
  0; 0; 0; 7; 0; 7; 7; 6; 0; 0; 0; 7;
  0; 7; 7; 6; 0; 7; 7; 6; 7; 6; 6; 5;
  0; 0; 0; 0; 0; 0; 0; 0; 0; 0; 0; 0;
  0; 0; 0; 0; 0; 0; 0; 0; 0; 0; 0; 0;
  0; 0; 0; 0; 0; 0; 0; 0; 0; 0; 0; 0;
  0; 0; 0; 0; 0; 0; 0; 0; 0; 0; 0; 0;
  0; 0; 0; 0; 0; 0; 0; 0; 0; 0; 0; 0;
  0; 0; 0; 0; 0; 0; 0; 0; 0; 0; 0; 0;
  0; 0; 0; 0; 0; 0; 0; 0; 0; 0; 0; 0;
  0; 0; 0; 0; 0; 0; 0; 0; 0; 0; 0; 0;
  0; 0; 0; 0; 0; 0; 0; 0; 0; 0; 0; 0;
  0; 0; 0; 0; 0; 0; 0; 0; 0; 0; 0; 0;
  0; 0; 0; 0; 0; 0; 0; 6; 0; 0; 0; 0;
  0; 0; 0; 0; 0; 0; 0; 0; 0; 0; 0; 0;
  0; 0; 0; 0; 0; 0; 0; 0; 0; 0; 0; 0;
  0; 0; 0; 0; 0; 0; 0; 0; 0; 0; 0; 0;
  0; 0; 0; 0; 0; 0; 0; 0; 0; 0; 0; 0;
  0; 0; 0; 0; 0; 0; 0; 0; 0; 0; 0; 7;
  0; 0; 0; 0; 0; 0; 0; 0; 0; 0; 0; 0;
  0; 0; 0; 0; 0; 0; 0; 0; 0; 0; 0; 0;
  0; 0; 0; 0; 0; 0; 0; 7; 0; 0; 0; 0;
  0; 0; 0; 0; 0; 0; 0; 0; 0; 0; 0; 7;
  0; 0; 0; 0; 0; 0; 0; 7; 0; 0; 0; 7;
  0; 7; 7; 6; 0; 0; 0; 0; 0; 0; 0; 0;
  0; 0; 0; 0; 0; 0; 0; 0; 0; 0; 0; 0;
  0; 0; 0; 0; 0; 0; 0; 0; 0; 0; 0; 0;
  0; 0; 0; 0; 0; 0; 0; 0; 0; 0; 0; 0;
  0; 0; 0; 0; 0; 0; 0; 0; 0; 0; 0; 0;
  0; 0; 0; 0; 0; 0; 0; 0; 0; 0; 0; 0;
  0; 0; 0; 0; 0; 0; 0; 0; 0; 0; 0; 0;
  0; 0; 0; 0; 0; 0; 0; 0; 0; 0; 0; 0;
  0; 0; 0; 0; 0; 0; 0; 0; 0; 0; 0; 0;
  0; 0; 0; 0; 0; 0; 0; 0; 0; 0; 0; 0;
  0; 0; 0; 0; 0; 0; 0; 0; 0; 0; 0; 0;
  0; 0; 0; 0; 0; 0; 0; 0; 0; 0; 0; 0;
  0; 0; 0; 0; 0; 0; 0; 0; 0; 0; 0; 0;
  0; 0; 0; 0; 0; 0; 0; 0; 0; 0; 0; 0;
  0; 0; 0; 0; 0; 0; 0; 0; 0; 0; 0; 0;
  0; 0; 0; 0; 0; 0; 0; 0; 0; 0; 0; 0;
  0; 0; 0; 0; 0; 0; 0; 0; 0; 0; 0; 0;
  0; 0; 0; 0; 0; 0; 0; 0; 0; 0; 0; 0;
  0; 0; 0; 0; 0; 0; 0; 0; 0; 0; 0; 0;
  0; 0; 0; 0; 0; 0; 0; 0; 0; 0; 0; 0;
  0; 0; 0; 0; 0; 0; 0; 0; 0; 0; 0; 0;
  0; 0; 0; 0; 0; 0; 0; 7
].

(** models lib/bits.cpp:431-524, bits::lt_fib, 92 entries *)
Definition tbl_lt_fib : list N := [
  1; 2; 3; 5; 8; 13; 21; 34; 55; 89; 144; 233;
  377; 610; 987; 1597; 2584; 4181; 6765; 10946; 17711; 28657; 46368; 75025;
  121393; 196418; 317811; 514229; 832040; 1346269; 2178309; 3524578; 5702887; 9227465; 14930352; 24157817;
  39088169; 63245986; 102334155; 165580141; 267914296; 433494437; 701408733; 1134903170; 1836311903; 2971215073; 4807526976; 7778742049;
  12586269025; 20365011074; 32951280099; 53316291173; 86267571272; 139583862445; 225851433717; 365435296162; 591286729879; 956722026041; 1548008755920; 2504730781961;
  4052739537881; 6557470319842; 10610209857723; 17167680177565; 27777890035288; 44945570212853; 72723460248141; 117669030460994; 190392490709135; 308061521170129; 498454011879264; 806515533049393;
  1304969544928657; 2111485077978050; 3416454622906707; 5527939700884757; 8944394323791464; 14472334024676221; 23416728348467685; 37889062373143906; 61305790721611591; 99194853094755497; 160500643816367088; 259695496911122585;
  420196140727489673; 679891637638612258; 1100087778366101931; 1779979416004714189; 2880067194370816120; 4660046610375530309; 7540113804746346429; 12200160415121876738
].

(** models lib/bits.cpp:526-559, bits::lt_lo, 256 entries *)
Definition tbl_lt_lo : list N := [
  0; 0; 1; 0; 2; 0; 1; 0; 3; 0; 1; 0;
  2; 0; 1; 0; 4; 0; 1; 0; 2; 0; 1; 0;
  3; 0; 1; 0; 2; 0; 1; 0; 5; 0; 1; 0;
  2; 0; 1; 0; 3; 0; 1; 0; 2; 0; 1; 0;
  4; 0; 1; 0; 2; 0; 1; 0; 3; 0; 1; 0;
  2; 0; 1; 0; 6; 0; 1; 0; 2; 0; 1; 0;
  3; 0; 1; 0; 2; 0; 1; 0; 4; 0; 1; 0;
  2; 0; 1; 0; 3; 0; 1; 0; 2; 0; 1; 0;
  5; 0; 1; 0; 2; 0; 1; 0; 3; 0; 1; 0;
  2; 0; 1; 0; 4; 0; 1; 0; 2; 0; 1; 0;
  3; 0; 1; 0; 2; 0; 1; 0; 7; 0; 1; 0;
  2; 0; 1; 0; 3; 0; 1; 0; 2; 0; 1; 0;
  4; 0; 1; 0; 2; 0; 1; 0; 3; 0; 1; 0;
  2; 0; 1; 0; 5; 0; 1; 0; 2; 0; 1; 0;
  3; 0; 1; 0; 2; 0; 1; 0; 4; 0; 1; 0;
  2; 0; 1; 0; 3; 0; 1; 0; 2; 0; 1; 0;
  6; 0; 1; 0; 2; 0; 1; 0; 3; 0; 1; 0;
  2; 0; 1; 0; 4; 0; 1; 0; 2; 0; 1; 0;
  3; 0; 1; 0; 2; 0; 1; 0; 5; 0; 1; 0;
  2; 0; 1; 0; 3; 0; 1; 0; 2; 0; 1; 0;
  4; 0; 1; 0; 2; 0; 1; 0; 3; 0; 1; 0;
  2; 0; 1; 0
].

(** models include/sdsl/bits.hpp:68, bits::deBruijn64 *)
Definition deBruijn64 : N := 151050438420815295.
