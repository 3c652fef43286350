(** Tables of the steel profiles, copied from geometry/profiles: name of the profile and its dimensions in tenths of a
    millimetre, in the order of the keys of the entry (every number of the tables has at most one decimal). *)
From Coq Require Import List ZArith String.
Import ListNotations.
Open Scope string_scope.
Open Scope Z_scope.

(** geometry/profiles/_ipe.py:19-38: keys h, b, tw, tf, r. *)
Definition rows_IPE : list (string * list Z) := [
  ("IPE80", [800; 460; 38; 52; 50]); ("IPE100", [1000; 550; 41; 57; 70]); ("IPE120", [1200; 640; 44; 63; 70]); ("IPE140", [1400; 730; 47; 69; 70]);
  ("IPE160", [1600; 820; 50; 74; 90]); ("IPE180", [1800; 910; 53; 80; 90]); ("IPE200", [2000; 1000; 56; 85; 120]);
  ("IPE220", [2200; 1100; 59; 92; 120]); ("IPE240", [2400; 1200; 62; 98; 150]); ("IPE270", [2700; 1350; 66; 102; 150]);
  ("IPE300", [3000; 1500; 71; 107; 150]); ("IPE330", [3300; 1600; 75; 115; 180]); ("IPE360", [3600; 1700; 80; 127; 180]);
  ("IPE400", [4000; 1800; 86; 135; 210]); ("IPE450", [4500; 1900; 94; 146; 210]); ("IPE500", [5000; 2000; 102; 160; 210]);
  ("IPE550", [5500; 2100; 111; 172; 240]); ("IPE600", [6000; 2200; 120; 190; 240])].
(** geometry/profiles/_he.py:19-104: keys h, b, tw, tf, r. *)
Definition rows_HE : list (string * list Z) := [
  ("HEA100", [960; 1000; 50; 80; 120]); ("HEA120", [1140; 1200; 50; 80; 120]); ("HEA140", [1330; 1400; 55; 85; 120]);
  ("HEA160", [1520; 1600; 60; 90; 150]); ("HEA180", [1710; 1800; 60; 95; 150]); ("HEA200", [1900; 2000; 65; 100; 180]);
  ("HEA220", [2100; 2200; 70; 110; 180]); ("HEA240", [2300; 2400; 75; 120; 210]); ("HEA260", [2500; 2600; 75; 125; 240]);
  ("HEA280", [2700; 2800; 80; 130; 240]); ("HEA300", [2900; 3000; 85; 140; 270]); ("HEA320", [3100; 3000; 90; 155; 270]);
  ("HEA340", [3300; 3000; 95; 165; 270]); ("HEA360", [3500; 3000; 100; 175; 270]); ("HEA400", [3900; 3000; 110; 190; 270]);
  ("HEA450", [4400; 3000; 115; 210; 270]); ("HEA500", [4900; 3000; 120; 230; 270]); ("HEA550", [5400; 3000; 125; 240; 270]);
  ("HEA600", [5900; 3000; 130; 250; 270]); ("HEA650", [6400; 3000; 135; 260; 270]); ("HEA700", [6900; 3000; 145; 270; 270]);
  ("HEA800", [7900; 3000; 150; 280; 300]); ("HEA900", [8900; 3000; 160; 300; 300]); ("HEA1000", [9900; 3000; 165; 310; 300]);
  ("HEB100", [1000; 1000; 60; 100; 120]); ("HEB120", [1200; 1200; 65; 110; 120]); ("HEB140", [1400; 1400; 70; 120; 120]);
  ("HEB160", [1600; 1600; 80; 130; 150]); ("HEB180", [1800; 1800; 85; 140; 150]); ("HEB200", [2000; 2000; 90; 150; 180]);
  ("HEB220", [2200; 2200; 95; 160; 180]); ("HEB240", [2400; 2400; 100; 170; 210]); ("HEB260", [2600; 2600; 100; 175; 240]);
  ("HEB280", [2800; 2800; 105; 180; 240]); ("HEB300", [3000; 3000; 110; 190; 270]); ("HEB320", [3200; 3000; 115; 205; 270]);
  ("HEB340", [3400; 3000; 120; 215; 270]); ("HEB360", [3600; 3000; 125; 225; 270]); ("HEB400", [4000; 3000; 135; 240; 270]);
  ("HEB450", [4500; 3000; 140; 260; 270]); ("HEB500", [5000; 3000; 145; 280; 270]); ("HEB550", [5500; 3000; 150; 290; 270]);
  ("HEB600", [6000; 3000; 155; 300; 270]); ("HEB650", [6500; 3000; 160; 310; 270]); ("HEB700", [7000; 3000; 170; 320; 270]);
  ("HEB800", [8000; 3000; 175; 330; 300]); ("HEB900", [9000; 3000; 185; 350; 300]); ("HEB1000", [10000; 3000; 190; 360; 300]);
  ("HEM100", [1200; 1060; 120; 200; 120]); ("HEM120", [1400; 1260; 125; 210; 120]); ("HEM140", [1600; 1460; 130; 220; 120]);
  ("HEM160", [1800; 1660; 140; 230; 150]); ("HEM180", [2000; 1860; 145; 240; 150]); ("HEM200", [2200; 2060; 150; 250; 180]);
  ("HEM220", [2400; 2260; 155; 260; 180]); ("HEM240", [2700; 2480; 180; 320; 210]); ("HEM260", [2900; 2680; 180; 325; 240]);
  ("HEM280", [3100; 2880; 185; 330; 240]); ("HEM300", [3400; 3100; 210; 390; 270]); ("HEM320", [3590; 3090; 210; 400; 270]);
  ("HEM340", [3770; 3090; 210; 400; 270]); ("HEM360", [3950; 3080; 210; 400; 270]); ("HEM400", [4320; 3070; 210; 400; 270]);
  ("HEM450", [4780; 3070; 210; 400; 270]); ("HEM500", [5240; 3060; 210; 400; 270]); ("HEM550", [5720; 3060; 210; 400; 270]);
  ("HEM600", [6200; 3050; 210; 400; 270]); ("HEM650", [6680; 3050; 210; 400; 270]); ("HEM700", [7160; 3040; 210; 400; 270]);
  ("HEM800", [8140; 3030; 210; 400; 300]); ("HEM900", [9100; 3020; 210; 400; 300]); ("HEM1000", [10080; 3020; 210; 400; 300])].
(** geometry/profiles/_hd.py:19-286: keys h, b, tw, tf, r. *)
Definition rows_HD : list (string * list Z) := [
  ("HD260x54.1", [2440; 2600; 65; 95; 240]); ("HD260x68.2", [2500; 2600; 75; 125; 240]); ("HD260x93.0", [2600; 2600; 100; 175; 240]);
  ("HD260x114.0", [2680; 2620; 125; 215; 240]); ("HD260x142.0", [2780; 2650; 155; 265; 240]); ("HD260x172.0", [2900; 2680; 180; 325; 240]);
  ("HD320x74.2", [3010; 3000; 80; 110; 270]); ("HD320x97.6", [3100; 3000; 90; 155; 270]); ("HD320x127.0", [3200; 3000; 115; 205; 270]);
  ("HD320x158.0", [3300; 3030; 145; 255; 270]); ("HD320x198.0", [3430; 3060; 180; 320; 270]); ("HD320x245.0", [3590; 3090; 210; 400; 270]);
  ("HD320x300.0", [3750; 3130; 270; 480; 270]); ("HD360x134.0", [3560; 3690; 112; 180; 150]); ("HD360x147.0", [3600; 3700; 123; 198; 150]);
  ("HD360x162.0", [3640; 3710; 133; 218; 150]); ("HD360x179.0", [3680; 3730; 150; 239; 150]); ("HD360x196.0", [3720; 3740; 164; 262; 150]);
  ("HD400x187.0", [3680; 3910; 150; 240; 150]); ("HD400x216.0", [3750; 3940; 173; 277; 150]); ("HD400x237.0", [3800; 3950; 189; 302; 150]);
  ("HD400x262.0", [3870; 3980; 211; 333; 150]); ("HD400x287.0", [3930; 3990; 226; 366; 150]); ("HD400x314.0", [3990; 4010; 249; 396; 150]);
  ("HD400x347.0", [4070; 4040; 272; 437; 150]); ("HD400x382.0", [4160; 4060; 298; 480; 150]); ("HD400x421.0", [4250; 4090; 328; 526; 150]);
  ("HD400x463.0", [4350; 4120; 358; 574; 150]); ("HD400x509.0", [4460; 4160; 391; 627; 150]); ("HD400x551.0", [4550; 4180; 420; 676; 150]);
  ("HD400x592.0", [4650; 4210; 450; 723; 150]); ("HD400x634.0", [4740; 4240; 476; 771; 150]); ("HD400x677.0", [4830; 4280; 512; 815; 150]);
  ("HD400x744.0", [4980; 4320; 556; 889; 150]); ("HD400x818.0", [5140; 4370; 605; 970; 150]); ("HD400x900.0", [5310; 4420; 659; 1060; 150]);
  ("HD400x990.0", [5500; 4480; 719; 1150; 150]); ("HD400x1086.0", [5690; 4540; 780; 1250; 150])].
(** geometry/profiles/_hp.py:19-231: keys h, b, tw, tf, r. *)
Definition rows_HP : list (string * list Z) := [
  ("HP200x43", [2000; 2050; 90; 90; 100]); ("HP200x53", [2040; 2070; 113; 113; 100]); ("HP220x57", [2100; 2245; 110; 110; 180]);
  ("HP260x75", [2490; 2650; 120; 120; 240]); ("HP260x87", [2530; 2670; 140; 140; 240]); ("HP305x79", [2993; 3064; 110; 111; 150]);
  ("HP305x88", [3017; 3078; 124; 123; 150]); ("HP305x95", [3037; 3087; 133; 133; 150]); ("HP305x110", [3079; 3107; 153; 154; 150]);
  ("HP305x126", [3123; 3129; 175; 176; 150]); ("HP305x149", [3185; 3160; 206; 207; 150]); ("HP305x180", [3267; 3197; 248; 248; 150]);
  ("HP305x186", [3283; 3209; 255; 256; 150]); ("HP305x223", [3379; 3257; 303; 304; 150]); ("HP320x88", [3030; 3040; 120; 120; 270]);
  ("HP320x103", [3070; 3060; 140; 140; 270]); ("HP320x117", [3110; 3080; 160; 160; 270]); ("HP320x147", [3190; 3120; 200; 200; 270]);
  ("HP320x184", [3290; 3170; 250; 250; 270]); ("HP360x109", [3464; 3710; 128; 129; 150]); ("HP360x133", [3520; 3738; 156; 157; 150]);
  ("HP360x152", [3564; 3760; 178; 179; 150]); ("HP360x174", [3614; 3785; 203; 204; 150]); ("HP360x180", [3629; 3788; 211; 211; 150]);
  ("HP400x122", [3480; 3900; 140; 140; 150]); ("HP400x140", [3520; 3920; 160; 160; 150]); ("HP400x158", [3560; 3940; 180; 180; 150]);
  ("HP400x176", [3600; 3960; 200; 200; 150]); ("HP400x194", [3640; 3980; 220; 220; 150]); ("HP400x213", [3680; 4000; 240; 240; 150]);
  ("HP400x231", [3720; 4020; 260; 260; 150])].
(** geometry/profiles/_ub.py:19-1268: keys h, b, tw, tf, r. *)
Definition rows_UB : list (string * list Z) := [
  ("UB1100x400x607", [11380; 4100; 310; 550; 300]); ("UB1100x400x548", [11280; 4070; 280; 500; 300]);
  ("UB1100x400x499", [11180; 4050; 260; 450; 300]); ("UB1100x400x433", [11080; 4020; 220; 400; 300]);
  ("UB1100x400x390", [11000; 4000; 200; 360; 300]); ("UB1100x400x343", [10900; 4000; 180; 310; 300]);
  ("UB1016x305x584", [10560; 3140; 360; 640; 300]); ("UB1016x305x494", [10360; 3090; 310; 540; 300]);
  ("UB1016x305x438", [10260; 3050; 269; 490; 300]); ("UB1016x305x415", [10200; 3040; 260; 460; 300]);
  ("UB1016x305x393", [10160; 3030; 244; 439; 300]); ("UB1016x305x350", [10080; 3020; 211; 400; 300]);
  ("UB1016x305x314", [10000; 3000; 191; 359; 300]); ("UB1016x305x272", [9900; 3000; 165; 310; 300]); ("UB1016x305x249", [9800; 3000; 165; 260; 300]);
  ("UB1016x305x222", [9700; 3000; 160; 211; 300]); ("UB1000x400x976", [11080; 4280; 500; 899; 300]);
  ("UB1000x400x883", [10920; 4240; 455; 820; 300]); ("UB1000x400x748", [10680; 4170; 390; 700; 300]);
  ("UB1000x400x642", [10480; 4120; 340; 600; 300]); ("UB1000x400x591", [10400; 4090; 310; 559; 300]);
  ("UB1000x400x554", [10320; 4080; 295; 520; 300]); ("UB1000x400x539", [10300; 4070; 284; 511; 300]);
  ("UB1000x400x483", [10200; 4040; 254; 460; 300]); ("UB1000x400x443", [10120; 4020; 236; 419; 300]);
  ("UB1000x400x412", [10080; 4020; 211; 400; 300]); ("UB1000x400x371", [10000; 4000; 190; 361; 300]);
  ("UB1000x400x321", [9900; 4000; 165; 310; 300]); ("UB1000x400x296", [9820; 4000; 165; 271; 300]);
  ("UB920x420x1377", [10930; 4730; 767; 1151; 250]); ("UB920x420x1269", [10930; 4610; 640; 1151; 250]);
  ("UB920x420x1194", [10810; 4570; 605; 1090; 250]); ("UB920x420x1077", [10610; 4510; 550; 991; 250]);
  ("UB920x420x970", [10430; 4460; 500; 899; 250]); ("UB920x420x787", [10110; 4370; 409; 739; 250]); ("UB920x420x725", [9990; 4340; 381; 681; 250]);
  ("UB920x420x656", [9870; 4310; 345; 620; 250]); ("UB920x420x588", [9750; 4270; 310; 559; 250]); ("UB920x420x537", [9650; 4250; 284; 511; 250]);
  ("UB920x420x491", [9570; 4220; 259; 470; 250]); ("UB920x420x449", [9480; 4230; 240; 427; 250]); ("UB920x420x420", [9430; 4220; 225; 399; 250]);
  ("UB920x420x390", [9360; 4200; 213; 366; 250]); ("UB920x420x368", [9310; 4190; 203; 343; 250]); ("UB920x420x344", [9270; 4180; 193; 320; 250]);
  ("UB914x305x576", [9930; 3220; 361; 650; 200]); ("UB914x305x521", [9810; 3190; 330; 589; 200]); ("UB914x305x474", [9710; 3160; 300; 541; 200]);
  ("UB914x305x425", [9610; 3130; 269; 490; 200]); ("UB914x305x381", [9510; 3100; 244; 439; 200]); ("UB914x305x345", [9430; 3080; 221; 399; 200]);
  ("UB914x305x313", [9320; 3090; 211; 345; 200]); ("UB914x305x289", [9266; 3077; 195; 320; 200]); ("UB914x305x271", [9230; 3070; 184; 300; 200]);
  ("UB914x305x253", [9184; 3055; 173; 279; 200]); ("UB914x305x238", [9150; 3050; 165; 259; 200]); ("UB914x305x224", [9104; 3041; 159; 239; 200]);
  ("UB914x305x201", [9030; 3033; 151; 202; 200]); ("UB840x400x576", [9130; 4110; 320; 579; 200]); ("UB840x400x527", [9030; 4090; 295; 531; 200]);
  ("UB840x400x473", [8930; 4060; 264; 480; 200]); ("UB840x400x433", [8850; 4040; 244; 439; 200]); ("UB840x400x392", [8770; 4010; 221; 399; 200]);
  ("UB840x400x359", [8680; 4030; 211; 356; 200]); ("UB840x400x329", [8620; 4010; 197; 324; 200]); ("UB840x400x299", [8560; 4000; 182; 292; 200]);
  ("UB838x292x251", [8590; 2920; 170; 310; 200]); ("UB838x292x226", [8509; 2938; 161; 268; 200]); ("UB838x292x194", [8407; 2924; 147; 217; 200]);
  ("UB838x292x176", [8349; 2917; 140; 188; 200]); ("UB760x380x582", [8430; 3960; 345; 620; 200]); ("UB760x380x531", [8330; 3930; 315; 569; 200]);
  ("UB760x380x484", [8230; 3900; 290; 521; 200]); ("UB760x380x434", [8130; 3870; 259; 470; 200]); ("UB760x380x389", [8030; 3850; 236; 419; 200]);
  ("UB760x380x350", [7950; 3820; 211; 381; 200]); ("UB760x380x314", [7860; 3840; 197; 334; 200]); ("UB760x380x284", [7800; 3820; 180; 301; 200]);
  ("UB760x380x257", [7720; 3810; 166; 271; 200]); ("UB762x267x220", [7790; 2660; 165; 300; 200]); ("UB762x267x197", [7698; 2680; 156; 254; 200]);
  ("UB762x267x173", [7622; 2667; 143; 216; 200]); ("UB762x267x147", [7540; 2652; 128; 175; 200]); ("UB762x267x134", [7500; 2644; 120; 155; 200]);
  ("UB690x360x802", [8260; 3870; 500; 899; 200]); ("UB690x360x548", [7720; 3720; 351; 630; 200]); ("UB690x360x500", [7620; 3690; 320; 579; 200]);
  ("UB690x360x457", [7520; 3670; 295; 531; 200]); ("UB690x360x419", [7440; 3640; 269; 490; 200]); ("UB690x360x384", [7360; 3620; 249; 450; 200]);
  ("UB690x360x350", [7280; 3600; 231; 409; 200]); ("UB690x360x323", [7220; 3590; 211; 381; 200]); ("UB690x360x289", [7140; 3560; 190; 340; 200]);
  ("UB690x360x265", [7060; 3580; 184; 302; 200]); ("UB690x360x240", [7010; 3560; 168; 274; 200]); ("UB690x360x217", [6950; 3550; 154; 248; 200]);
  ("UB686x254x192", [7020; 2540; 155; 279; 200]); ("UB686x254x170", [6929; 2558; 145; 237; 200]); ("UB686x254x152", [6875; 2545; 132; 210; 200]);
  ("UB686x254x140", [6835; 2537; 124; 190; 200]); ("UB686x254x125", [6779; 2530; 117; 162; 200]); ("UB610x325x551", [7110; 3470; 386; 691; 200]);
  ("UB610x325x498", [6990; 3430; 351; 630; 200]); ("UB610x325x455", [6890; 3400; 320; 579; 200]); ("UB610x325x415", [6790; 3380; 295; 531; 200]);
  ("UB610x325x372", [6690; 3350; 264; 480; 200]); ("UB610x325x341", [6610; 3330; 244; 439; 200]); ("UB610x325x307", [6530; 3300; 221; 399; 200]);
  ("UB610x325x285", [6470; 3290; 206; 371; 200]); ("UB610x325x262", [6410; 3270; 190; 340; 200]); ("UB610x325x241", [6350; 3290; 179; 310; 200]);
  ("UB610x325x217", [6280; 3280; 165; 277; 200]); ("UB610x325x195", [6220; 3270; 154; 244; 200]); ("UB610x325x174", [6160; 3250; 140; 216; 200]);
  ("UB610x325x155", [6110; 3240; 127; 190; 200]); ("UB610x305x238", [6358; 3114; 184; 314; 200]); ("UB610x305x179", [6202; 3071; 141; 236; 200]);
  ("UB610x305x149", [6124; 3048; 118; 197; 200]); ("UB610x229x153", [6230; 2290; 140; 249; 200]); ("UB610x229x140", [6172; 2302; 131; 221; 200]);
  ("UB610x229x125", [6122; 2290; 119; 196; 200]); ("UB610x229x113", [6076; 2282; 111; 173; 200]); ("UB610x229x101", [6026; 2276; 105; 148; 200]);
  ("UB610x178x92", [6030; 1790; 109; 150; 130]); ("UB610x178x82", [5990; 1780; 100; 128; 130]); ("UB533x210x138", [5490; 2140; 147; 236; 130]);
  ("UB533x210x122", [5445; 2119; 127; 213; 130]); ("UB533x210x109", [5395; 2108; 116; 188; 130]); ("UB533x210x101", [5367; 2100; 108; 174; 130]);
  ("UB533x210x92", [5331; 2093; 101; 156; 130]); ("UB533x210x82", [5283; 2088; 96; 132; 130]); ("UB533x165x85", [5350; 1660; 103; 165; 130]);
  ("UB533x165x74", [5290; 1660; 97; 136; 130]); ("UB533x165x66", [5250; 1650; 89; 114; 130]); ("UB457x191x106", [4690; 1940; 126; 206; 100]);
  ("UB457x191x98", [4672; 1928; 114; 196; 100]); ("UB457x191x89", [4634; 1919; 105; 177; 100]); ("UB457x191x82", [4600; 1913; 99; 160; 100]);
  ("UB457x191x74", [4570; 1904; 90; 145; 100]); ("UB457x191x67", [4534; 1899; 85; 127; 100]); ("UB457x152x82", [4658; 1553; 105; 189; 100]);
  ("UB457x152x74", [4620; 1544; 96; 170; 100]); ("UB457x152x67", [4580; 1538; 90; 150; 100]); ("UB457x152x60", [4546; 1529; 81; 133; 100]);
  ("UB457x152x52", [4498; 1524; 76; 109; 100]); ("UB406x178x85", [4170; 1810; 109; 182; 100]); ("UB406x178x74", [4128; 1795; 95; 160; 100]);
  ("UB406x178x67", [4094; 1788; 88; 143; 100]); ("UB406x178x60", [4064; 1779; 79; 128; 100]); ("UB406x178x54", [4026; 1777; 77; 109; 100]);
  ("UB406x140x53", [4066; 1433; 79; 129; 100]); ("UB406x140x46", [4032; 1422; 68; 112; 100]); ("UB406x140x39", [3980; 1418; 64; 86; 100]);
  ("UB356x171x67", [3634; 1732; 91; 157; 100]); ("UB356x171x57", [3580; 1722; 81; 130; 100]); ("UB356x171x51", [3550; 1715; 74; 115; 100]);
  ("UB356x171x45", [3514; 1711; 70; 97; 100]); ("UB356x127x39", [3534; 1260; 66; 107; 100]); ("UB356x127x33", [3490; 1254; 60; 85; 100]);
  ("UB305x165x54", [3104; 1669; 79; 137; 90]); ("UB305x165x46", [3066; 1657; 67; 118; 90]); ("UB305x165x40", [3034; 1650; 60; 102; 90]);
  ("UB305x127x48", [3110; 1253; 90; 140; 90]); ("UB305x127x42", [3072; 1243; 80; 121; 90]); ("UB305x127x37", [3044; 1234; 71; 107; 90]);
  ("UB305x102x33", [3127; 1024; 66; 108; 80]); ("UB305x102x28", [3087; 1018; 60; 88; 80]); ("UB305x102x25", [3051; 1016; 58; 70; 80]);
  ("UB254x146x43", [2596; 1473; 72; 127; 80]); ("UB254x146x37", [2560; 1464; 63; 109; 80]); ("UB254x146x31", [2514; 1461; 60; 86; 80]);
  ("UB254x102x28", [2604; 1022; 63; 100; 80]); ("UB254x102x25", [2572; 1019; 60; 84; 80]); ("UB254x102x22", [2540; 1016; 57; 68; 80]);
  ("UB203x133x30", [2068; 1339; 64; 96; 80]); ("UB203x133x25", [2032; 1332; 57; 78; 80]); ("UB203x102x23", [2032; 1018; 54; 93; 80]);
  ("UB178x102x19", [1778; 1012; 48; 79; 80]); ("UB152x89x16", [1524; 887; 45; 77; 80]); ("UB127x76x13", [1270; 760; 40; 76; 80])].
(** geometry/profiles/_ubp.py:19-139: keys h, b, tw, tf, r. *)
Definition rows_UBP : list (string * list Z) := [
  ("UBP203x203x45", [2000; 2060; 95; 95; 100]); ("UBP203x203x54", [2040; 2080; 113; 114; 100]); ("UBP254x254x63", [2470; 2570; 106; 107; 200]);
  ("UBP254x254x71", [2500; 2580; 120; 120; 200]); ("UBP254x254x85", [2540; 2600; 144; 143; 200]); ("UBP305x305x79", [2990; 3060; 110; 111; 200]);
  ("UBP305x305x88", [3020; 3080; 124; 123; 200]); ("UBP305x305x95", [3040; 3090; 133; 133; 200]); ("UBP305x305x110", [3080; 3110; 153; 154; 200]);
  ("UBP305x305x126", [3120; 3130; 175; 176; 200]); ("UBP305x305x149", [3180; 3160; 206; 207; 200]); ("UBP305x305x186", [3280; 3210; 255; 256; 20]);
  ("UBP305x305x223", [3380; 3260; 303; 304; 200]); ("UBP356x368x109", [3460; 3710; 128; 129; 200]); ("UBP356x368x133", [3520; 3740; 156; 157; 200]);
  ("UBP356x368x152", [3560; 3760; 178; 179; 200]); ("UBP356x368x174", [3610; 3780; 203; 204; 200])].
(** geometry/profiles/_uc.py:19-188: keys h, b, tw, tf, r. *)
Definition rows_UC : list (string * list Z) := [
  ("UC152x152x23", [1520; 1520; 58; 68; 80]); ("UC152x152x30", [1580; 1530; 65; 94; 80]); ("UC152x152x37", [1620; 1540; 80; 115; 80]);
  ("UC152x152x44", [1660; 1560; 95; 136; 80]); ("UC152x152x51", [1700; 1570; 110; 157; 80]); ("UC203x203x46", [2030; 2040; 72; 110; 130]);
  ("UC203x203x52", [2060; 2040; 79; 125; 130]); ("UC203x203x60", [2100; 2060; 94; 142; 130]); ("UC203x203x71", [2160; 2060; 100; 173; 130]);
  ("UC203x203x86", [2220; 2090; 127; 205; 130]); ("UC203x203x100", [2290; 2100; 145; 237; 130]); ("UC203x203x113", [2350; 2120; 163; 269; 130]);
  ("UC203x203x127", [2410; 2140; 181; 301; 130]); ("UC254x254x73", [2540; 2550; 86; 142; 200]); ("UC254x254x81", [2560; 2550; 94; 156; 200]);
  ("UC254x254x89", [2600; 2560; 103; 173; 200]); ("UC254x254x101", [2640; 2570; 119; 196; 200]); ("UC254x254x107", [2670; 2590; 128; 205; 200]);
  ("UC254x254x115", [2690; 2590; 135; 221; 200]); ("UC254x254x132", [2760; 2610; 153; 253; 200]); ("UC254x254x149", [2820; 2630; 173; 284; 200]);
  ("UC254x254x167", [2890; 2650; 192; 317; 200]); ("UC305x305x97", [3080; 3050; 99; 154; 200]); ("UC305x305x107", [3110; 3060; 109; 170; 200])].
(** geometry/profiles/_w.py:24-2069: keys h, b, tw, tf, r. *)
Definition rows_W : list (string * list Z) := [
  ("W1100x400x607", [11380; 4100; 310; 550; 300]); ("W1100x400x548", [11280; 4070; 280; 500; 300]); ("W1100x400x499", [11180; 4050; 260; 450; 300]);
  ("W1100x400x433", [11080; 4020; 220; 400; 300]); ("W1100x400x390", [11000; 4000; 200; 360; 300]); ("W1100x400x343", [10900; 4000; 180; 310; 300]);
  ("W1000x400x976", [11080; 4280; 500; 899; 300]); ("W1000x400x883", [10920; 4240; 455; 820; 300]); ("W1000x400x748", [10680; 4170; 390; 700; 300]);
  ("W1000x400x642", [10480; 4120; 340; 600; 300]); ("W1000x400x591", [10400; 4090; 310; 559; 300]); ("W1000x400x554", [10320; 4080; 295; 520; 300]);
  ("W1000x400x539", [10300; 4070; 284; 511; 300]); ("W1000x400x483", [10200; 4040; 254; 460; 300]); ("W1000x400x443", [10120; 4020; 236; 419; 300]);
  ("W1000x400x412", [10080; 4020; 211; 400; 300]); ("W1000x400x371", [10000; 4000; 190; 361; 300]); ("W1000x400x321", [9900; 4000; 165; 310; 300]);
  ("W1000x400x296", [9820; 4000; 165; 271; 300]); ("W1000x300x584", [10560; 3140; 360; 640; 300]); ("W1000x300x494", [10360; 3090; 310; 540; 300]);
  ("W1000x300x486", [10360; 3080; 300; 541; 300]); ("W1000x300x438", [10260; 3050; 269; 490; 300]); ("W1000x300x415", [10200; 3040; 260; 460; 300]);
  ("W1000x300x393", [10160; 3030; 244; 439; 300]); ("W1000x300x350", [10080; 3020; 211; 400; 300]); ("W1000x300x314", [10000; 3000; 191; 359; 300]);
  ("W1000x300x272", [9900; 3000; 165; 310; 300]); ("W1000x300x249", [9800; 3000; 165; 260; 300]); ("W1000x300x222", [9700; 3000; 160; 211; 300]);
  ("W920x420x1377", [10930; 4730; 767; 1151; 250]); ("W920x420x1269", [10930; 4610; 640; 1151; 250]);
  ("W920x420x1194", [10810; 4570; 605; 1090; 250]); ("W920x420x1077", [10610; 4510; 550; 991; 250]); ("W920x420x970", [10430; 4460; 500; 899; 250]);
  ("W920x420x787", [10110; 4370; 409; 739; 250]); ("W920x420x725", [9990; 4340; 381; 681; 250]); ("W920x420x656", [9870; 4310; 345; 620; 250]);
  ("W920x420x588", [9750; 4270; 310; 559; 250]); ("W920x420x537", [9650; 4250; 284; 511; 250]); ("W920x420x491", [9570; 4220; 259; 470; 250]);
  ("W920x420x449", [9480; 4230; 240; 427; 250]); ("W920x420x420", [9430; 4220; 225; 399; 250]); ("W920x420x390", [9360; 4200; 213; 366; 250]);
  ("W920x420x368", [9310; 4190; 203; 343; 250]); ("W920x420x344", [9270; 4180; 193; 320; 250]); ("W920x310x576", [9930; 3220; 361; 650; 250]);
  ("W920x310x521", [9810; 3190; 330; 589; 250]); ("W920x310x474", [9710; 3160; 300; 541; 250]); ("W920x310x425", [9610; 3130; 269; 490; 250]);
  ("W920x310x381", [9510; 3100; 244; 439; 250]); ("W920x310x345", [9430; 3080; 221; 399; 250]); ("W920x310x313", [9320; 3090; 211; 345; 250]);
  ("W920x310x289", [9270; 3080; 194; 320; 250]); ("W920x310x271", [9230; 3070; 184; 300; 250]); ("W920x310x253", [9190; 3060; 173; 279; 250]);
  ("W920x310x238", [9150; 3050; 165; 259; 250]); ("W920x310x223", [9110; 3040; 159; 239; 250]); ("W920x310x201", [9030; 3040; 152; 201; 250]);
  ("W840x400x576", [9130; 4110; 320; 579; 200]); ("W840x400x527", [9030; 4090; 295; 531; 200]); ("W840x400x473", [8930; 4060; 264; 480; 200]);
  ("W840x400x433", [8850; 4040; 244; 439; 200]); ("W840x400x392", [8770; 4010; 221; 399; 200]); ("W840x400x359", [8680; 4030; 211; 356; 200]);
  ("W840x400x329", [8620; 4010; 197; 324; 200]); ("W840x400x299", [8560; 4000; 182; 292; 200]); ("W840x295x251", [8590; 2920; 170; 310; 200]);
  ("W840x295x226", [8510; 2940; 161; 268; 200]); ("W840x295x210", [8460; 2930; 154; 244; 200]); ("W840x295x193", [8400; 2920; 147; 217; 200]);
  ("W840x295x176", [8350; 2920; 140; 188; 200]); ("W760x380x582", [8430; 3960; 345; 620; 200]); ("W760x380x531", [8330; 3930; 315; 569; 200]);
  ("W760x380x484", [8230; 3900; 290; 521; 200]); ("W760x380x434", [8130; 3870; 259; 470; 200]); ("W760x380x389", [8030; 3850; 236; 419; 200]);
  ("W760x380x350", [7950; 3820; 211; 381; 200]); ("W760x380x314", [7860; 3840; 197; 334; 200]); ("W760x380x284", [7800; 3820; 180; 301; 200]);
  ("W760x380x257", [7720; 3810; 166; 271; 200]); ("W760x265x220", [7790; 2660; 165; 300; 200]); ("W760x265x196", [7700; 2680; 156; 254; 200]);
  ("W760x265x185", [7660; 2670; 149; 236; 200]); ("W760x265x173", [7620; 2670; 144; 216; 200]); ("W760x265x161", [7580; 2660; 138; 193; 200]);
  ("W760x265x147", [7530; 2650; 132; 170; 200]); ("W760x265x134", [7500; 2640; 119; 155; 200]); ("W690x360x802", [8260; 3870; 500; 899; 200]);
  ("W690x360x548", [7720; 3720; 351; 630; 200]); ("W690x360x500", [7620; 3690; 320; 579; 200]); ("W690x360x457", [7520; 3670; 295; 531; 200]);
  ("W690x360x419", [7440; 3640; 269; 490; 200]); ("W690x360x384", [7360; 3620; 249; 450; 200]); ("W690x360x350", [7280; 3600; 231; 409; 200]);
  ("W690x360x323", [7220; 3590; 211; 381; 200]); ("W690x360x289", [7140; 3560; 190; 340; 200]); ("W690x360x265", [7060; 3580; 184; 302; 200]);
  ("W690x360x240", [7010; 3560; 168; 274; 200]); ("W690x360x217", [6950; 3550; 154; 248; 200]); ("W690x250x192", [7020; 2540; 155; 279; 200]);
  ("W690x250x170", [6930; 2560; 145; 236; 200]); ("W690x250x152", [6880; 2540; 131; 211; 200]); ("W690x250x140", [6840; 2540; 124; 189; 200]);
  ("W690x250x125", [6780; 2530; 117; 163; 200]); ("W610x325x551", [7110; 3470; 386; 691; 200]); ("W610x325x498", [6990; 3430; 351; 630; 200]);
  ("W610x325x455", [6890; 3400; 320; 579; 200]); ("W610x325x415", [6790; 3380; 295; 531; 200]); ("W610x325x372", [6690; 3350; 264; 480; 200]);
  ("W610x325x341", [6610; 3330; 244; 439; 200]); ("W610x325x307", [6530; 3300; 221; 399; 200]); ("W610x325x285", [6470; 3290; 206; 371; 200]);
  ("W610x325x262", [6410; 3270; 190; 340; 200]); ("W610x325x241", [6350; 3290; 179; 310; 200]); ("W610x325x217", [6280; 3280; 165; 277; 200]);
  ("W610x325x195", [6220; 3270; 154; 244; 200]); ("W610x325x174", [6160; 3250; 140; 216; 200]); ("W610x325x155", [6110; 3240; 127; 190; 200]);
  ("W610x230x153", [6230; 2290; 140; 249; 200]); ("W610x230x140", [6170; 2300; 131; 222; 200]); ("W610x230x125", [6120; 2290; 119; 196; 200]);
  ("W610x230x113", [6080; 2280; 112; 173; 200]); ("W610x230x101", [6030; 2280; 105; 149; 200]); ("W610x180x92", [6030; 1790; 109; 150; 130]);
  ("W610x180x82", [5990; 1780; 100; 128; 130]); ("W530x315x409", [6130; 3270; 310; 556; 250]); ("W530x315x369", [6030; 3240; 279; 505; 250]);
  ("W530x315x332", [5930; 3220; 254; 455; 250]); ("W530x315x300", [5850; 3190; 231; 414; 250]); ("W530x315x272", [5770; 3170; 211; 376; 250]);
  ("W530x315x248", [5710; 3150; 190; 345; 250]); ("W530x315x219", [5600; 3180; 183; 292; 250]); ("W530x315x196", [5540; 3160; 165; 263; 250]);
  ("W530x315x182", [5510; 3150; 152; 244; 250]); ("W530x315x165", [5460; 3130; 140; 222; 250]); ("W530x315x150", [5430; 3120; 127; 203; 250]);
  ("W530x210x138", [5490; 2140; 147; 236; 130]); ("W530x210x123", [5440; 2120; 131; 212; 130]); ("W530x210x109", [5390; 2110; 116; 188; 130]);
  ("W530x210x101", [5370; 2100; 109; 174; 130]); ("W530x210x92", [5330; 2090; 102; 156; 130]); ("W530x210x82", [5280; 2090; 95; 133; 130]);
  ("W530x210x72", [5240; 2070; 90; 109; 130]); ("W530x165x85", [5350; 1660; 103; 165; 130]); ("W530x165x74", [5290; 1660; 97; 136; 130]);
  ("W530x165x66", [5250; 1650; 89; 114; 130]); ("W460x280x464", [5670; 3050; 386; 696; 200]); ("W460x280x421", [5550; 3020; 356; 635; 200]);
  ("W460x280x384", [5450; 2990; 325; 584; 200]); ("W460x280x349", [5350; 2960; 295; 536; 200]); ("W460x280x315", [5250; 2930; 269; 485; 200]);
  ("W460x280x286", [5170; 2910; 244; 444; 200]); ("W460x280x260", [5090; 2890; 226; 404; 200]); ("W460x280x235", [5010; 2870; 206; 366; 200]);
  ("W460x280x213", [4950; 2850; 185; 335; 200]); ("W460x280x193", [4890; 2830; 170; 305; 200]); ("W460x280x177", [4820; 2860; 166; 269; 200]);
  ("W460x280x158", [4760; 2840; 150; 239; 200]); ("W460x280x144", [4720; 2830; 136; 221; 200]); ("W460x280x128", [4670; 2820; 122; 196; 200]);
  ("W460x280x113", [4630; 2800; 108; 173; 200]); ("W460x190x106", [4690; 1940; 126; 206; 100]); ("W460x190x97", [4660; 1930; 114; 190; 100]);
  ("W460x190x89", [4630; 1920; 105; 177; 100]); ("W460x190x82", [4600; 1910; 99; 160; 100]); ("W460x190x74", [4570; 1900; 90; 145; 100]);
  ("W460x190x67#", [4540; 1900; 85; 127; 100]); ("W460x150x68", [4590; 1540; 91; 154; 100]); ("W460x150x60", [4550; 1530; 80; 133; 100]);
  ("W460x150x52", [4500; 1520; 76; 108; 100]); ("W410x260x149", [4310; 2650; 149; 250; 100]); ("W410x260x132", [4250; 2630; 133; 222; 100]);
  ("W410x260x114", [4200; 2610; 116; 193; 100]); ("W410x260x100", [4150; 2600; 100; 169; 100]); ("W410x180x85", [4170; 1810; 109; 182; 100]);
  ("W410x180x75", [4130; 1800; 97; 160; 100]); ("W410x180x67", [4100; 1790; 88; 144; 100]); ("W410x180x60", [4070; 1780; 77; 128; 100]);
  ("W410x180x53", [4030; 1770; 75; 109; 100]); ("W410x140x53.3#", [4070; 1430; 79; 129; 100]); ("W410x140x46.1", [4030; 1400; 70; 112; 100]);
  ("W410x140x38.8", [3990; 1400; 64; 88; 100]); ("W360x410x1488", [6400; 4840; 1080; 1598; 200]); ("W360x410x1384", [6170; 4810; 1045; 1484; 200]);
  ("W360x410x1299", [6000; 4760; 1000; 1400; 200]); ("W360x410x1202", [5800; 4710; 950; 1300; 200]); ("W360x410x1086", [5690; 4540; 780; 1250; 200]);
  ("W360x410x990", [5500; 4480; 719; 1150; 200]); ("W360x410x900", [5310; 4420; 659; 1060; 200]); ("W360x410x818", [5140; 4370; 605; 970; 200]);
  ("W360x410x744", [4980; 4320; 556; 889; 200]); ("W360x410x677", [4830; 4280; 512; 815; 200]); ("W360x410x634", [4740; 4240; 476; 771; 200]);
  ("W360x410x592", [4650; 4210; 450; 723; 200]); ("W360x410x551", [4550; 4180; 420; 676; 200]); ("W360x410x509", [4460; 4160; 391; 627; 200]);
  ("W360x410x463", [4350; 4120; 358; 574; 200]); ("W360x410x421", [4250; 4090; 328; 526; 200]); ("W360x410x382", [4160; 4060; 298; 480; 200]);
  ("W360x410x347", [4070; 4040; 272; 437; 200]); ("W360x410x314", [3990; 4010; 249; 396; 200]); ("W360x410x287", [3930; 3990; 226; 366; 200]);
  ("W360x410x262", [3870; 3980; 211; 333; 200]); ("W360x410x237", [3800; 3950; 189; 302; 200]); ("W360x410x216", [3750; 3940; 173; 277; 200]);
  ("W360x370x196", [3720; 3740; 164; 262; 200]); ("W360x370x179", [3680; 3730; 150; 239; 200]); ("W360x370x162", [3640; 3710; 133; 218; 200]);
  ("W360x370x147", [3600; 3700; 123; 198; 200]); ("W360x370x134", [3560; 3690; 112; 180; 200]); ("W360x250x122", [3630; 2570; 130; 217; 150]);
  ("W360x250x110", [3600; 2560; 114; 199; 150]); ("W360x250x101", [3570; 2550; 105; 183; 150]); ("W360x250x91", [3530; 2540; 95; 164; 150]);
  ("W360x200x79", [3540; 2050; 94; 168; 150]); ("W360x200x72", [3500; 2040; 86; 151; 150]); ("W360x200x64", [3470; 2030; 77; 135; 150]);
  ("W360x170x58", [3580; 1720; 79; 131; 100]); ("W360x170x51", [3550; 1710; 72; 116; 100]); ("W360x170x44.6", [3520; 1710; 69; 98; 100]);
  ("W360x130x39.0", [3530; 1280; 65; 107; 100]); ("W360x130x32.9", [3490; 1270; 58; 85; 100]); ("W310x310x500", [4270; 3400; 451; 751; 200]);
  ("W310x310x454", [4150; 3360; 413; 687; 200]); ("W310x310x415", [4030; 3340; 389; 627; 200]); ("W310x310x375", [3910; 3300; 354; 572; 200]);
  ("W310x310x342", [3820; 3280; 326; 526; 200]); ("W310x310x313", [3740; 3250; 300; 483; 200]); ("W310x310x283", [3650; 3220; 269; 441; 200]);
  ("W310x310x253", [3560; 3190; 244; 396; 200]); ("W310x310x226", [3480; 3170; 221; 356; 200]); ("W310x310x202", [3410; 3150; 201; 318; 200]);
  ("W310x310x179", [3330; 3130; 180; 281; 200]); ("W310x310x158", [3270; 3100; 155; 251; 200]); ("W310x310x143", [3230; 3090; 140; 229; 200]);
  ("W310x310x129", [3180; 3080; 131; 206; 200]); ("W310x310x117", [3140; 3070; 119; 187; 200]); ("W310x310x107", [3110; 3060; 109; 170; 200]);
  ("W310x310x97", [3080; 3050; 99; 154; 200]); ("W310x250x86", [3100; 2540; 91; 163; 150]); ("W310x250x79", [3060; 2540; 88; 146; 150]);
  ("W310x200x74", [3100; 2050; 94; 163; 150]); ("W310x200x67", [3060; 2040; 85; 146; 150]); ("W310x200x60", [3030; 2030; 75; 131; 150]);
  ("W310x165x52", [3170; 1670; 76; 132; 80]); ("W310x165x44.5", [3130; 1660; 66; 112; 80]); ("W310x165x38.7", [3100; 1650; 58; 97; 80]);
  ("W310x100x32.7", [3130; 1020; 66; 108; 80]); ("W310x100x28.3", [3090; 1020; 60; 89; 80]); ("W310x100x23.8", [3050; 1010; 56; 67; 80]);
  ("W310x100x21.0", [3030; 1010; 51; 57; 80]); ("W250x250x167", [2890; 2650; 192; 318; 130]); ("W250x250x149", [2820; 2630; 173; 284; 130]);
  ("W250x250x131", [2750; 2610; 154; 251; 130]); ("W250x250x115", [2690; 2590; 135; 221; 130]); ("W250x250x101", [2640; 2570; 119; 196; 130]);
  ("W250x250x89", [2600; 2560; 107; 173; 130]); ("W250x250x80", [2560; 2550; 94; 156; 130]); ("W250x250x73", [2530; 2540; 86; 142; 130]);
  ("W250x200x67", [2570; 2040; 89; 157; 130]); ("W250x200x58", [2520; 2030; 80; 135; 130]); ("W250x200x49.1", [2470; 2020; 74; 110; 130]);
  ("W250x145x44.8", [2660; 1480; 76; 130; 80]); ("W250x145x38.5", [2620; 1470; 66; 112; 80]); ("W250x145x32.7", [2580; 1460; 61; 91; 80]);
  ("W250x100x28.4", [2600; 1020; 64; 100; 80]); ("W250x100x25.3", [2570; 1020; 61; 84; 80]); ("W250x100x22.3", [2540; 1020; 58; 69; 80]);
  ("W250x100x17.9", [2510; 1010; 48; 53; 80]); ("W200x200x100", [2290; 2100; 145; 237; 100]); ("W200x200x86", [2220; 2090; 130; 206; 100]);
  ("W200x200x71", [2160; 2060; 102; 174; 100]); ("W200x200x59", [2100; 2050; 91; 142; 100]); ("W200x200x52", [2060; 2040; 79; 126; 100]);
  ("W200x200x46.1", [2030; 2030; 72; 110; 100]); ("W200x165x41.7", [2050; 1660; 72; 118; 100]); ("W200x165x35.9", [2010; 1650; 62; 102; 100]);
  ("W200x135x31.3", [2100; 1340; 64; 102; 80]); ("W200x135x26.6", [2070; 1330; 58; 84; 80]); ("W200x100x22.5", [2060; 1020; 62; 80; 80]);
  ("W200x100x19.3", [2030; 1020; 58; 65; 80]); ("W200x100x15.0", [2000; 1000; 43; 52; 80]); ("W150x150x37.1", [1620; 1540; 81; 116; 60]);
  ("W150x150x29.8", [1570; 1530; 66; 93; 60]); ("W150x150x22.5", [1520; 1520; 58; 66; 60]); ("W150x100x24.0", [1600; 1020; 66; 103; 60]);
  ("W150x100x18.0", [1530; 1020; 58; 71; 60]); ("W150x100x13.5", [1500; 1000; 43; 55; 60]); ("W130x130x28.1", [1310; 1280; 69; 109; 80]);
  ("W130x130x23.8", [1270; 1270; 61; 91; 80]); ("W100x100x19.3", [1060; 1030; 71; 88; 60])].
(** geometry/profiles/_upe.py:19-34: keys h, b, tw, tf, r. *)
Definition rows_UPE : list (string * list Z) := [
  ("UPE80", [800; 500; 40; 70; 100]); ("UPE100", [1000; 550; 45; 75; 100]); ("UPE120", [1200; 600; 50; 80; 120]);
  ("UPE140", [1400; 650; 50; 90; 120]); ("UPE160", [1600; 700; 55; 95; 120]); ("UPE180", [1800; 750; 55; 105; 120]);
  ("UPE200", [2000; 800; 60; 110; 130]); ("UPE220", [2200; 850; 65; 120; 130]); ("UPE240", [2400; 900; 70; 125; 150]);
  ("UPE270", [2700; 950; 75; 135; 150]); ("UPE300", [3000; 1000; 95; 150; 150]); ("UPE330", [3300; 1050; 110; 160; 180]);
  ("UPE360", [3600; 1100; 120; 170; 180]); ("UPE400", [4000; 1150; 135; 180; 180])].
(** geometry/profiles/_ipn.py:21-211: keys h, b, tw, tf, r1, r2, d. *)
Definition rows_IPN : list (string * list Z) := [
  ("IPN80", [800; 420; 39; 59; 39; 23; 590]); ("IPN100", [1000; 500; 45; 68; 45; 27; 757]); ("IPN120", [1200; 580; 51; 77; 51; 31; 924]);
  ("IPN140", [1400; 660; 57; 86; 57; 34; 1091]); ("IPN160", [1600; 740; 63; 95; 63; 38; 1258]); ("IPN180", [1800; 820; 69; 104; 69; 41; 1424]);
  ("IPN200", [2000; 900; 75; 113; 75; 45; 1591]); ("IPN220", [2200; 980; 81; 122; 81; 49; 1758]); ("IPN240", [2400; 1060; 87; 131; 87; 52; 1925]);
  ("IPN260", [2600; 1130; 94; 141; 94; 56; 2089]); ("IPN280", [2800; 1190; 101; 152; 101; 61; 2251]);
  ("IPN300", [3000; 1250; 108; 162; 108; 65; 2416]); ("IPN320", [3200; 1310; 115; 173; 115; 69; 2579]);
  ("IPN340", [3400; 1370; 122; 183; 122; 73; 2743]); ("IPN360", [3600; 1430; 130; 195; 130; 78; 2902]);
  ("IPN380", [3800; 1490; 137; 205; 137; 82; 3067]); ("IPN400", [4000; 1550; 144; 216; 144; 86; 3229]);
  ("IPN450", [4500; 1700; 162; 243; 162; 97; 3636]); ("IPN500", [5000; 1850; 180; 270; 180; 108; 4043]);
  ("IPN550", [5500; 2000; 190; 300; 190; 119; 4456]); ("IPN600", [6000; 2150; 216; 324; 216; 130; 4858])].
(** geometry/profiles/_upn.py:23-186: keys h, b, tw, tf, r1, r2, d. *)
Definition rows_UPN : list (string * list Z) := [
  ("UPN50", [500; 380; 50; 70; 70; 40; 210]); ("UPN65", [650; 420; 55; 75; 80; 40; 340]); ("UPN80", [800; 450; 60; 80; 80; 40; 470]);
  ("UPN100", [1000; 500; 60; 85; 90; 50; 640]); ("UPN120", [1200; 550; 70; 90; 90; 50; 820]); ("UPN140", [1400; 600; 70; 100; 100; 50; 980]);
  ("UPN160", [1600; 650; 75; 105; 110; 60; 1150]); ("UPN180", [1800; 700; 80; 110; 110; 60; 1330]); ("UPN200", [2000; 750; 85; 115; 120; 60; 1510]);
  ("UPN220", [2200; 800; 90; 125; 130; 70; 1670]); ("UPN240", [2400; 850; 95; 130; 130; 70; 1840]); ("UPN260", [2600; 900; 100; 140; 140; 70; 2000]);
  ("UPN280", [2800; 950; 100; 150; 150; 80; 2160]); ("UPN300", [3000; 1000; 100; 160; 160; 80; 2320]);
  ("UPN320", [3200; 1000; 140; 175; 180; 90; 2460]); ("UPN350", [3500; 1000; 140; 160; 160; 80; 2820]);
  ("UPN380", [3800; 1020; 135; 160; 160; 80; 3130]); ("UPN400", [4000; 1100; 140; 180; 180; 90; 3240])].
(** geometry/profiles/_u.py:23-56: keys h, b, tw, tf, r1, r2. *)
Definition rows_U : list (string * list Z) := [
  ("U40x20", [400; 200; 50; 55; 50; 25]); ("U50x25", [500; 250; 50; 60; 60; 30]); ("U60x30", [600; 300; 60; 60; 60; 30]);
  ("U65x42", [650; 420; 55; 75; 75; 40])].
(** geometry/profiles/_l.py:20-425: keys h, b, t, r1, r2. *)
Definition rows_L : list (string * list Z) := [
  ("L20x20x3", [200; 200; 30; 35; 20]); ("L25x25x3", [250; 250; 30; 35; 20]); ("L25x25x4", [250; 250; 40; 35; 20]);
  ("L30x30x3", [300; 300; 30; 50; 25]); ("L30x30x4", [300; 300; 40; 50; 25]); ("L35x35x4", [350; 350; 40; 50; 25]);
  ("L40x40x4", [400; 400; 40; 60; 30]); ("L40x40x5", [400; 400; 50; 60; 30]); ("L45x45x4.5", [450; 450; 45; 70; 35]);
  ("L50x50x4", [500; 500; 40; 70; 35]); ("L50x50x5", [500; 500; 50; 70; 35]); ("L50x50x6", [500; 500; 60; 70; 35]);
  ("L60x60x5", [600; 600; 50; 80; 40]); ("L60x60x6", [600; 600; 60; 80; 40]); ("L60x60x8", [600; 600; 80; 80; 40]);
  ("L65x65x7", [650; 650; 70; 90; 45]); ("L70x70x6", [700; 700; 60; 90; 45]); ("L70x70x7", [700; 700; 70; 90; 45]);
  ("L75x75x6", [750; 750; 60; 100; 50]); ("L75x75x8", [750; 750; 80; 100; 50]); ("L80x80x8", [800; 800; 80; 100; 50]);
  ("L80x80x10", [800; 800; 100; 100; 50]); ("L90x90x7", [900; 900; 70; 110; 55]); ("L90x90x8", [900; 900; 80; 110; 55]);
  ("L90x90x9", [900; 900; 90; 110; 55]); ("L90x90x10", [900; 900; 100; 110; 55]); ("L100x100x8", [1000; 1000; 80; 120; 60]);
  ("L100x100x10", [1000; 1000; 100; 120; 60]); ("L100x100x12", [1000; 1000; 120; 120; 60]); ("L110x110x10", [1100; 1100; 100; 130; 65]);
  ("L110x110x12", [1100; 1100; 120; 130; 65]); ("L120x120x10", [1200; 1200; 100; 130; 65]); ("L120x120x11", [1200; 1200; 110; 130; 65]);
  ("L120x120x12", [1200; 1200; 120; 130; 65]); ("L120x120x13", [1200; 1200; 130; 130; 65]); ("L120x120x15", [1200; 1200; 150; 130; 65]);
  ("L130x130x12", [1300; 1300; 120; 140; 70]); ("L150x150x10", [1500; 1500; 100; 160; 80]); ("L150x150x12", [1500; 1500; 120; 160; 80]);
  ("L150x150x14", [1500; 1500; 140; 160; 80]); ("L150x150x15", [1500; 1500; 150; 160; 80]); ("L150x150x18", [1500; 1500; 180; 160; 80]);
  ("L160x160x14", [1600; 1600; 140; 170; 85]); ("L160x160x15", [1600; 1600; 150; 170; 85]); ("L160x160x16", [1600; 1600; 160; 170; 85]);
  ("L160x160x17", [1600; 1600; 170; 170; 85]); ("L180x180x13", [1800; 1800; 130; 180; 90]); ("L180x180x14", [1800; 1800; 140; 180; 90]);
  ("L180x180x15", [1800; 1800; 150; 180; 90]); ("L180x180x16", [1800; 1800; 160; 180; 90]); ("L180x180x17", [1800; 1800; 170; 180; 90]);
  ("L180x180x18", [1800; 1800; 180; 180; 90]); ("L180x180x19", [1800; 1800; 190; 180; 90]); ("L180x180x20", [1800; 1800; 200; 180; 90]);
  ("L200x200x15", [2000; 2000; 150; 180; 90]); ("L200x200x16", [2000; 2000; 160; 180; 90]); ("L200x200x17", [2000; 2000; 170; 180; 90]);
  ("L200x200x18", [2000; 2000; 180; 180; 90]); ("L200x200x19", [2000; 2000; 190; 180; 90]); ("L200x200x20", [2000; 2000; 200; 180; 90]);
  ("L200x200x21", [2000; 2000; 210; 180; 90]); ("L200x200x22", [2000; 2000; 220; 180; 90]); ("L200x200x23", [2000; 2000; 230; 180; 90]);
  ("L200x200x24", [2000; 2000; 240; 180; 90]); ("L200x200x25", [2000; 2000; 250; 180; 90]); ("L200x200x26", [2000; 2000; 260; 180; 90]);
  ("L250x250x20", [2500; 2500; 200; 180; 90]); ("L250x250x21", [2500; 2500; 210; 180; 90]); ("L250x250x22", [2500; 2500; 220; 180; 90]);
  ("L250x250x23", [2500; 2500; 230; 180; 90]); ("L250x250x24", [2500; 2500; 240; 180; 90]); ("L250x250x25", [2500; 2500; 250; 180; 90]);
  ("L250x250x26", [2500; 2500; 260; 180; 90]); ("L250x250x27", [2500; 2500; 270; 180; 90]); ("L250x250x28", [2500; 2500; 280; 180; 90]);
  ("L250x250x35", [2500; 2500; 350; 180; 90]); ("L203x203x19", [2030; 2030; 190; 80; 40]); ("L203x203x22.2", [2030; 2030; 222; 80; 40]);
  ("L203x203x25.4", [2030; 2030; 254; 80; 40]); ("L203x203x28.6", [2030; 2030; 286; 80; 40])].
(** geometry/profiles/_li.py:20-114: keys h, b, t, r1, r2. *)
Definition rows_LI : list (string * list Z) := [
  ("L120x80x8", [1200; 800; 80; 110; 55]); ("L120x80x10", [1200; 800; 100; 110; 55]); ("L120x80x12", [1200; 800; 120; 110; 55]);
  ("L150x75x9", [1500; 750; 90; 120; 60]); ("L150x75x10", [1500; 750; 100; 120; 60]); ("L150x75x11", [1500; 750; 110; 120; 60]);
  ("L150x75x12", [1500; 750; 120; 120; 60]); ("L150x90x10", [1500; 900; 100; 120; 60]); ("L150x90x11", [1500; 900; 110; 120; 60]);
  ("L150x100x10", [1500; 1000; 100; 120; 60]); ("L150x100x12", [1500; 1000; 120; 120; 60]); ("L150x100x14", [1500; 1000; 140; 120; 60]);
  ("L200x100x10", [2000; 1000; 100; 150; 75]); ("L200x100x12", [2000; 1000; 120; 150; 75]); ("L200x100x14", [2000; 1000; 140; 150; 75])].
