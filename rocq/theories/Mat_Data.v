(** The tables of /repo/spins/material/material.py: 88-343 (SiO2), 346-511 (Si), 514-536 (Si3N4), energies in eV
    in decreasing order and the values there.  The decimal numbers are taken exactly. *)
From Coq Require Import QArith List.
Import ListNotations.
Local Open Scope Q_scope.

(** lines 100-160 *)
Definition SiO2_En : list Q := [
  10000#1; 48862#5; 95499#10; 18665#2; 91201#10; 17825#2; 43548#5; 42557#5; 41588#5; 81283#10; 79433#10; 15525#2;
  37929#5; 74131#10; 36222#5; 14159#2; 69183#10; 33804#5; 66069#10; 12913#2; 31548#5; 6166#1; 30128#5; 29442#5;
  28772#5; 28117#5; 27477#5; 53703#10; 52481#10; 25643#5; 50119#10; 24489#5; 47863#10; 23387#5; 45709#10; 22334#5;
  21826#5; 21329#5; 41687#10; 20369#5; 39811#10; 7781#2; 38019#10; 18577#5; 18154#5; 35481#10; 17337#5; 16942#5;
  33113#10; 32359#10; 31623#10; 30903#10; 3020#1; 14756#5; 2884#1; 14092#5; 13771#5; 5383#2; 26303#10; 12852#5;
  25119#10; 24547#10; 11994#5; 11721#5; 22909#10; 22387#10; 10939#5; 2138#1; 20893#10; 20417#10; 19953#10; 9749#5;
  3811#2; 18621#10; 18197#10; 17783#10; 8689#5; 8491#5; 8298#5; 8109#5; 15849#10; 7744#5; 7568#5; 14791#10; 7227#5;
  2825#2; 6902#5; 1349#1; 13183#10; 6441#5; 12589#10; 12303#10; 12023#10; 11749#10; 5741#5; 1122#1; 2193#2; 2143#2;
  10471#10; 10233#10; 1000#1; 4886#5; 955#1; 9333#10; 912#1; 8913#10; 871#1; 8511#10; 4159#5; 4064#5; 7943#10;
  7763#10; 3793#5; 7413#10; 3622#5; 708#1; 3459#5; 6761#10; 6607#10; 6457#10; 631#1; 3083#5; 3013#5; 2944#5; 2877#5;
  5623#10; 1099#2; 537#1; 2624#5; 5129#10; 2506#5; 2449#5; 2393#5; 4677#10; 4571#10; 4467#10; 873#2; 2133#5; 4169#10;
  2037#5; 3981#10; 389#1; 1901#5; 743#2; 3631#10; 1774#5; 3467#10; 1694#5; 3311#10; 1618#5; 1581#5; 309#1; 302#1;
  2951#10; 1442#5; 1409#5; 1377#5; 2691#10; 263#1; 257#1; 1256#5; 491#2; 2399#10; 1172#5; 2291#10; 2239#10; 1094#5;
  1069#5; 2089#10; 1021#5; 399#2; 195#1; 953#5; 931#5; 182#1; 889#5; 869#5; 849#5; 166#1; 811#5; 317#2; 1549#10;
  757#5; 756#5; 1479#10; 738#5; 289#2; 721#5; 1413#10; 1409#10; 138#1; 689#5; 1349#10; 674#5; 1319#10; 659#5; 646#5;
  644#5; 253#2; 1259#10; 124#1; 123#1; 608#5; 601#5; 596#5; 235#2; 117#1; 574#5; 1127#10; 561#5; 1107#10; 1097#10;
  544#5; 536#5; 1069#10; 1051#10; 1047#10; 1033#10; 1023#10; 508#5; 100#1; 9999#100; 492#5; 977#10; 4843#50; 191#2;
  9537#100; 9393#100; 933#10; 9253#100; 456#5; 9117#100; 2246#25; 871#10; 851#10; 416#5; 4133#50; 813#10; 397#5;
  388#5; 7749#100; 759#10; 741#10; 7293#100; 362#5; 354#5; 346#5; 1722#25; 338#5; 661#10; 3263#50; 323#5; 631#10;
  6199#100; 617#10; 603#10; 1476#25; 589#10; 115#2; 1409#25; 281#5; 55#1; 5391#100; 537#10; 105#2; 2583#50; 513#10;
  4959#100; 4769#100; 1148#25; 1107#25; 171#4; 4133#100; 40#1; 155#4; 3757#100; 3647#100; 1771#50; 861#25; 3351#100;
  3263#100; 3179#100; 31#1; 756#25; 738#25; 2883#100; 1409#50; 551#20; 539#20; 1319#50; 2583#100; 253#10; 25#1;
  124#5; 2431#100; 24#1; 596#25; 2339#100; 23#1; 574#25; 1127#50; 1107#50; 22#1; 87#4; 1069#50; 2101#100; 21#1;
  1033#50; 20#1; 39#2; 19#1; 37#2; 18#1; 71#4; 35#2; 69#4; 17#1; 67#4; 33#2; 65#4; 16#1; 63#4; 31#2; 61#4; 15#1;
  59#4; 29#2; 57#4; 14#1; 55#4; 27#2; 53#4; 13#1; 51#4; 25#2; 49#4; 12#1; 59#5; 58#5; 57#5; 56#5; 11#1; 109#10; 54#5;
  107#10; 53#5; 21#2; 209#20; 52#5; 207#20; 103#10; 41#4; 51#5; 101#10; 10#1; 99#10; 49#5; 97#10; 48#5; 19#2; 47#5;
  93#10; 46#5; 91#10; 9#1; 89#10; 44#5; 87#10; 43#5; 17#2; 42#5; 83#10; 41#5; 81#10; 8#1; 39#5; 38#5; 37#5; 36#5;
  7#1; 27#4; 13#2; 25#4; 6#1; 7247#1250; 57819#10000; 1367#250; 26929#5000; 52131#10000; 25837#5000; 49939#10000;
  46751#10000; 2297#500; 563#125; 22113#5000; 2678#625; 5223#1250; 20517#5000; 18771#5000; 7421#2000; 36427#10000;
  3577#1000; 1717#500; 33967#10000; 383#125; 1778#625; 26503#10000; 1594#625; 24379#10000; 4541#2000; 21489#10000;
  21411#10000; 10551#5000; 21041#10000; 19257#10000; 4723#2500; 9283#5000; 17549#10000; 291#200; 13863#10000;
  3057#2500; 11449#10000; 2197#2000; 45509#50000; 44437#50000; 21093#25000; 81061#100000; 74663#100000; 2929#4000;
  72543#100000; 2137#3125; 31467#50000; 60243#100000; 28799#50000; 53317#100000; 12717#25000; 38221#100000;
  37953#100000; 18771#50000; 17677#50000; 34863#100000; 33449#100000; 403#1250; 186#625; 341#1250; 31#125; 279#1250;
  527#2500; 124#625; 961#5000; 93#500; 367#2000; 181#1000; 357#2000; 1761#10000; 217#1250; 1711#10000; 843#5000;
  837#5000; 1661#10000; 1649#10000; 1637#10000; 203#1250; 403#2500; 1599#10000; 1587#10000; 63#400; 781#5000; 31#200;
  1537#10000; 61#400; 1513#10000; 3#20; 93#625; 59#400; 1463#10000; 1451#10000; 719#5000; 713#5000; 1413#10000;
  1401#10000; 1389#10000; 86#625; 341#2500; 1351#10000; 1333#10000; 651#5000; 1271#10000; 31#250; 1209#10000;
  589#5000; 1147#10000; 279#2500; 1091#10000; 533#5000; 527#5000; 1041#10000; 1029#10000; 1017#10000; 251#2500;
  9919#100000; 1959#20000; 9671#100000; 9547#100000; 9423#100000; 9299#100000; 8989#100000; 8679#100000; 8369#100000;
  8059#100000; 7749#100000; 7439#100000; 7191#100000; 6943#100000; 1339#20000; 3267#50000; 6447#100000; 6323#100000;
  6199#100000; 243#4000; 5951#100000; 5889#100000; 5827#100000; 5703#100000; 1091#20000; 5207#100000; 4959#100000;
  4649#100000; 4339#100000; 403#10000; 93#2500; 341#10000; 31#1000; 31#2500; 9919#1000000; 7439#1000000;
  4959#1000000; 31#12500].
(** lines 161-231 *)
Definition SiO2_n : list Q := [
  199999#200000; 499997#500000; 499997#500000; 499997#500000; 999993#1000000; 999993#1000000; 999993#1000000;
  124999#125000; 124999#125000; 124999#125000; 999991#1000000; 999991#1000000; 99999#100000; 99999#100000;
  999989#1000000; 999989#1000000; 249997#250000; 249997#250000; 999987#1000000; 999987#1000000; 499993#500000;
  199997#200000; 199997#200000; 62499#62500; 999983#1000000; 499991#500000; 999981#1000000; 999981#1000000;
  49999#50000; 999979#1000000; 499989#500000; 999977#1000000; 124997#125000; 499987#500000; 999973#1000000;
  249993#250000; 99997#100000; 999969#1000000; 31249#31250; 499983#500000; 199993#200000; 999963#1000000;
  999961#1000000; 999959#1000000; 999957#1000000; 199991#200000; 999953#1000000; 999951#1000000; 999949#1000000;
  499973#500000; 124993#125000; 999941#1000000; 499969#500000; 15624#15625; 999933#1000000; 99993#100000;
  499963#500000; 999923#1000000; 999919#1000000; 249979#250000; 124989#125000; 249977#250000; 31247#31250;
  9999#10000; 124987#125000; 999891#1000000; 999887#1000000; 499941#500000; 499939#500000; 999873#1000000;
  999869#1000000; 199973#200000; 999861#1000000; 999863#1000000; 499929#500000; 999843#1000000; 999833#1000000;
  999823#1000000; 999813#1000000; 499901#500000; 62487#62500; 999781#1000000; 99977#100000; 499879#500000;
  499873#500000; 499867#500000; 999721#1000000; 999707#1000000; 999693#1000000; 499839#500000; 499831#500000;
  499823#500000; 999629#1000000; 999611#1000000; 999593#1000000; 999573#1000000; 999553#1000000; 249883#250000;
  99951#100000; 999487#1000000; 124933#125000; 999439#1000000; 999413#1000000; 499693#500000; 499679#500000;
  999329#1000000; 999299#1000000; 249817#250000; 199847#200000; 499601#500000; 999167#1000000; 249783#250000;
  124887#125000; 999059#1000000; 999021#1000000; 49949#50000; 19979#20000; 99891#100000; 99887#100000; 99883#100000;
  99879#100000; 24969#25000; 49937#50000; 3121#3125; 99871#100000; 49937#50000; 9989#10000; 99887#100000;
  49931#50000; 12481#12500; 19967#20000; 6239#6250; 24953#25000; 99801#100000; 99789#100000; 49889#50000;
  19953#20000; 99753#100000; 4987#5000; 99727#100000; 99713#100000; 49849#50000; 99683#100000; 99667#100000;
  99651#100000; 49817#50000; 3113#3125; 49799#50000; 99579#100000; 99559#100000; 99539#100000; 49759#50000;
  12437#12500; 99473#100000; 1989#2000; 49713#50000; 99401#100000; 159#160; 24837#25000; 2483#2500; 99291#100000;
  4963#5000; 99229#100000; 99197#100000; 19833#20000; 99131#100000; 99097#100000; 99063#100000; 24757#25000;
  9899#10000; 1237#1250; 2473#2500; 9889#10000; 4943#5000; 2471#2500; 4941#5000; 9881#10000; 9879#10000; 4939#5000;
  79#80; 617#625; 2467#2500; 9863#10000; 9871#10000; 9859#10000; 1973#2000; 1971#2000; 493#500; 9853#10000;
  1971#2000; 9853#10000; 9853#10000; 9853#10000; 4927#5000; 4929#5000; 4927#5000; 2467#2500; 4927#5000; 617#625;
  4927#5000; 4937#5000; 1971#2000; 1973#2000; 9853#10000; 9851#10000; 9849#10000; 9841#10000; 19691#20000; 2461#2500;
  4917#5000; 4911#5000; 9827#10000; 2457#2500; 9819#10000; 9867#10000; 4929#5000; 9813#10000; 9839#10000; 9809#10000;
  9823#10000; 9821#10000; 9813#10000; 9803#10000; 612#625; 4897#5000; 4881#5000; 9789#10000; 4889#5000; 487#500;
  977#1000; 9721#10000; 9761#10000; 9747#10000; 9683#10000; 1933#2000; 4823#5000; 4817#5000; 9627#10000; 1201#1250;
  2397#2500; 1201#1250; 598#625; 9547#10000; 4781#5000; 381#400; 9503#10000; 9481#10000; 9509#10000; 9457#10000;
  4717#5000; 4729#5000; 9409#10000; 1173#1250; 1177#1250; 9359#10000; 9333#10000; 4693#5000; 9307#10000; 9279#10000;
  583#625; 2313#2500; 1153#1250; 9271#10000; 2299#2500; 573#625; 4611#5000; 457#500; 2291#2500; 1821#2000;
  9207#10000; 367#400; 9137#10000; 913#1000; 907#1000; 901#1000; 179#200; 111#125; 441#500; 877#1000; 87#100;
  433#500; 429#500; 851#1000; 169#200; 839#1000; 833#1000; 827#1000; 411#500; 817#1000; 813#1000; 101#125; 201#250;
  733#1000; 803#1000; 201#250; 753#1000; 403#500; 811#1000; 387#500; 817#1000; 411#500; 829#1000; 797#1000; 833#1000;
  843#1000; 851#1000; 827#1000; 431#500; 859#1000; 879#1000; 451#500; 927#1000; 957#1000; 39#40; 999#1000; 103#100;
  134#125; 281#250; 1137#1000; 289#250; 293#250; 589#500; 293#250; 1167#1000; 146#125; 47#40; 239#200; 49#40;
  253#200; 33#25; 1363#1000; 1371#1000; 171#125; 343#250; 1383#1000; 141#100; 59#40; 777#500; 327#200; 429#250;
  883#500; 1739#1000; 1687#1000; 1587#1000; 1513#1000; 373#250; 1567#1000; 329#200; 443#250; 1919#1000; 256#125;
  269#125; 56#25; 583#250; 233#100; 573#250; 2243#1000; 219#100; 107#50; 523#250; 2047#1000; 1003#500; 1969#1000;
  387#200; 238#125; 469#250; 37#20; 73#40; 1803#1000; 1783#1000; 441#250; 1747#1000; 173#100; 429#250; 851#500;
  419#250; 1653#1000; 1633#1000; 202#125; 8#5; 791#500; 1567#1000; 777#500; 1543#1000; 153429#100000; 153371#100000;
  38069#25000; 152009#100000; 75737#50000; 75669#50000; 150841#100000; 37501#25000; 29961#20000; 18699#12500;
  37351#25000; 149099#100000; 148873#100000; 148719#100000; 148053#100000; 18497#12500; 73929#50000; 73873#50000;
  18439#12500; 147453#100000; 146961#100000; 146669#100000; 146429#100000; 146313#100000; 146187#100000; 18251#12500;
  29177#20000; 145877#100000; 145847#100000; 145841#100000; 145671#100000; 145637#100000; 18201#12500; 29103#20000;
  4539#3125; 29037#20000; 5801#4000; 144941#100000; 18111#12500; 144621#100000; 18073#12500; 144497#100000;
  144427#100000; 144267#100000; 72113#50000; 28841#20000; 144069#100000; 143851#100000; 71861#50000; 17947#12500;
  35823#25000; 28619#20000; 70657#50000; 141253#100000; 28231#20000; 17571#12500; 70209#50000; 4373#3125; 279#200;
  1383#1000; 273#200; 671#500; 653#500; 639#500; 1239#1000; 303#250; 47#40; 579#500; 227#200; 1107#1000; 271#250;
  1053#1000; 507#500; 4851#5000; 593#625; 367#400; 8897#10000; 43#50; 8213#10000; 7719#10000; 7037#10000; 779#1250;
  341#625; 4677#10000; 4113#10000; 3931#10000; 201#500; 4329#10000; 453#1000; 23#50; 473#1000; 2373#5000; 291#625;
  4563#10000; 4309#10000; 783#2000; 3563#10000; 741#2000; 2923#5000; 1043#1000; 202#125; 9#4; 69#25; 2839#1000;
  1347#500; 306#125; 278#125; 1019#500; 1869#1000; 223#125; 169#100; 413#250; 1619#1000; 323#200; 829#500; 1701#1000;
  25#2; 633#50; 641#50; 1299#100; 329#25; 1333#100; 1379#100; 1429#100; 1481#100; 769#50; 16#1; 1667#100; 431#25;
  893#50; 463#25; 1897#100; 1923#100; 1961#100; 20#1; 2041#100; 2083#100; 421#20; 532#25; 1087#50; 2273#100;
  2381#100; 25#1; 2667#100; 2857#100; 3077#100; 3333#100; 909#25; 40#1; 100#1; 125#1; 1667#10; 250#1; 500#1].
(** lines 232-282 *)
Definition SiO2_Ek : list Q := [
  10000#1; 48862#5; 95499#10; 18665#2; 91201#10; 17825#2; 43548#5; 42557#5; 41588#5; 81283#10; 79433#10; 15525#2;
  37929#5; 74131#10; 36222#5; 14159#2; 69183#10; 33804#5; 66069#10; 12913#2; 31548#5; 6166#1; 30128#5; 29442#5;
  28772#5; 28117#5; 27477#5; 53703#10; 52481#10; 25643#5; 50119#10; 24489#5; 47863#10; 23387#5; 45709#10; 22334#5;
  21826#5; 21329#5; 41687#10; 20369#5; 39811#10; 7781#2; 38019#10; 18577#5; 18154#5; 35481#10; 17337#5; 16942#5;
  33113#10; 32359#10; 31623#10; 30903#10; 3020#1; 14756#5; 2884#1; 14092#5; 13771#5; 5383#2; 26303#10; 12852#5;
  25119#10; 24547#10; 11994#5; 11721#5; 22909#10; 22387#10; 10939#5; 2138#1; 20893#10; 20417#10; 19953#10; 9749#5;
  3811#2; 18621#10; 18197#10; 17783#10; 8689#5; 8491#5; 8298#5; 8109#5; 15849#10; 7744#5; 7568#5; 14791#10; 7227#5;
  2825#2; 6902#5; 1349#1; 13183#10; 6441#5; 12589#10; 12303#10; 12023#10; 11749#10; 5741#5; 1122#1; 2193#2; 2143#2;
  10471#10; 10233#10; 1000#1; 4886#5; 955#1; 9333#10; 912#1; 8913#10; 871#1; 8511#10; 4159#5; 4064#5; 7943#10;
  7763#10; 3793#5; 7413#10; 3622#5; 708#1; 3459#5; 6761#10; 6607#10; 6457#10; 631#1; 3083#5; 3013#5; 2944#5; 2877#5;
  5623#10; 1099#2; 537#1; 2624#5; 5129#10; 2506#5; 2449#5; 2393#5; 4677#10; 4571#10; 4467#10; 873#2; 2133#5; 4169#10;
  2037#5; 3981#10; 389#1; 1901#5; 743#2; 3631#10; 1774#5; 3467#10; 1694#5; 3311#10; 1618#5; 1581#5; 309#1; 302#1;
  2951#10; 1442#5; 1409#5; 1377#5; 2691#10; 263#1; 257#1; 1256#5; 491#2; 2399#10; 1172#5; 2291#10; 2239#10; 1094#5;
  1069#5; 2089#10; 1021#5; 399#2; 195#1; 953#5; 931#5; 182#1; 889#5; 869#5; 849#5; 166#1; 811#5; 317#2; 1549#10;
  757#5; 756#5; 1479#10; 738#5; 289#2; 721#5; 1413#10; 1409#10; 138#1; 689#5; 1349#10; 674#5; 1319#10; 659#5; 646#5;
  644#5; 253#2; 1259#10; 124#1; 123#1; 608#5; 601#5; 596#5; 235#2; 117#1; 574#5; 1127#10; 561#5; 1107#10; 1097#10;
  544#5; 536#5; 1069#10; 1051#10; 1047#10; 1033#10; 1023#10; 508#5; 100#1; 9999#100; 492#5; 977#10; 4843#50; 191#2;
  9537#100; 9393#100; 933#10; 9253#100; 456#5; 9117#100; 2246#25; 871#10; 851#10; 416#5; 4133#50; 813#10; 397#5;
  388#5; 7749#100; 759#10; 741#10; 7293#100; 362#5; 354#5; 346#5; 1722#25; 338#5; 661#10; 3263#50; 323#5; 631#10;
  6199#100; 617#10; 603#10; 1476#25; 589#10; 115#2; 1409#25; 281#5; 55#1; 5391#100; 537#10; 105#2; 2583#50; 513#10;
  4959#100; 4769#100; 1148#25; 1107#25; 171#4; 4133#100; 40#1; 155#4; 3757#100; 3647#100; 1771#50; 861#25; 3351#100;
  3263#100; 3179#100; 31#1; 756#25; 738#25; 2883#100; 1409#50; 551#20; 539#20; 1319#50; 2583#100; 253#10; 25#1;
  124#5; 2431#100; 24#1; 596#25; 2339#100; 23#1; 574#25; 1127#50; 1107#50; 22#1; 87#4; 1069#50; 2101#100; 21#1;
  1033#50; 20#1; 39#2; 19#1; 37#2; 18#1; 71#4; 35#2; 69#4; 17#1; 67#4; 33#2; 65#4; 16#1; 63#4; 31#2; 61#4; 15#1;
  59#4; 29#2; 57#4; 14#1; 55#4; 27#2; 53#4; 13#1; 51#4; 25#2; 49#4; 12#1; 59#5; 58#5; 57#5; 56#5; 11#1; 109#10; 54#5;
  107#10; 53#5; 21#2; 209#20; 52#5; 207#20; 103#10; 41#4; 51#5; 101#10; 10#1; 99#10; 49#5; 97#10; 48#5; 19#2; 47#5;
  93#10; 46#5; 91#10; 9#1; 89#10; 44#5; 87#10; 43#5; 17#2; 42#5; 83#10; 41#5; 81#10; 8#1; 39#5; 403#2500; 1599#10000;
  1587#10000; 63#400; 781#5000; 31#200; 1537#10000; 61#400; 1513#10000; 3#20; 93#625; 59#400; 1463#10000; 1451#10000;
  719#5000; 713#5000; 1413#10000; 1401#10000; 1389#10000; 86#625; 341#2500; 1351#10000; 1333#10000; 651#5000;
  1271#10000; 31#250; 1209#10000; 589#5000; 1147#10000; 279#2500; 1091#10000; 533#5000; 527#5000; 1041#10000;
  1029#10000; 1017#10000; 251#2500; 9919#100000; 1959#20000; 9671#100000; 9547#100000; 9423#100000; 9299#100000;
  8989#100000; 8679#100000; 8369#100000; 8059#100000; 7749#100000; 7439#100000; 7191#100000; 6943#100000; 1339#20000;
  3267#50000; 6447#100000; 6323#100000; 6199#100000; 243#4000; 5951#100000; 5889#100000; 5827#100000; 5703#100000;
  1091#20000; 5207#100000; 4959#100000; 4649#100000; 4339#100000; 403#10000; 93#2500; 341#10000; 31#1000; 31#2500;
  9919#1000000; 7439#1000000; 4959#1000000; 31#12500].
(** lines 283-342 *)
Definition SiO2_k : list Q := [
  117#2500000000; 513#10000000000; 281#5000000000; 77#1250000000; 27#400000000; 37#500000000; 81#1000000000;
  111#1250000000; 973#10000000000; 107#1000000000; 117#1000000000; 1#7812500; 7#50000000; 153#1000000000;
  21#125000000; 23#125000000; 201#1000000000; 11#50000000; 241#1000000000; 33#125000000; 289#1000000000;
  79#250000000; 173#500000000; 379#1000000000; 207#500000000; 453#1000000000; 31#62500000; 271#500000000;
  593#1000000000; 81#125000000; 709#1000000000; 31#40000000; 847#1000000000; 463#500000000; 101#100000000;
  111#100000000; 121#100000000; 33#25000000; 9#6250000; 79#50000000; 43#25000000; 47#25000000; 41#20000000;
  7#3125000; 61#25000000; 267#100000000; 291#100000000; 317#100000000; 173#50000000; 377#100000000; 411#100000000;
  7#1562500; 489#100000000; 133#25000000; 29#5000000; 79#12500000; 43#6250000; 749#100000000; 163#20000000;
  443#50000000; 241#25000000; 21#2000000; 57#5000000; 31#2500000; 27#2000000; 73#5000000; 159#10000000; 43#2500000;
  187#10000000; 203#10000000; 11#500000; 119#5000000; 129#5000000; 7#250000; 113#12500000; 987#100000000; 27#2500000;
  59#5000000; 1#78125; 7#500000; 153#10000000; 83#5000000; 181#10000000; 99#5000000; 43#2000000; 47#2000000;
  51#2000000; 139#5000000; 303#10000000; 33#1000000; 359#10000000; 391#10000000; 17#400000; 231#5000000;
  503#10000000; 547#10000000; 119#2000000; 81#1250000; 141#2000000; 383#5000000; 829#10000000; 9#100000; 49#500000;
  107#1000000; 29#250000; 1#8000; 17#125000; 147#1000000; 1#6250; 87#500000; 189#1000000; 103#500000; 223#1000000;
  121#500000; 263#1000000; 57#200000; 77#250000; 333#1000000; 181#500000; 393#1000000; 213#500000; 461#1000000;
  499#1000000; 27#50000; 117#200000; 633#1000000; 343#500000; 51#250000; 221#1000000; 239#1000000; 129#500000;
  279#1000000; 151#500000; 163#500000; 11#31250; 19#50000; 411#1000000; 111#250000; 3#6250; 259#500000; 7#12500;
  121#200000; 653#1000000; 353#500000; 191#250000; 413#500000; 893#1000000; 193#200000; 13#12500; 113#100000;
  61#50000; 33#25000; 143#100000; 77#50000; 83#50000; 179#100000; 6#3125; 207#100000; 111#50000; 239#100000;
  257#100000; 277#100000; 149#50000; 321#100000; 173#50000; 93#25000; 401#100000; 27#6250; 233#50000; 251#50000;
  541#100000; 583#100000; 157#25000; 339#50000; 73#10000; 97#12500; 821#100000; 861#100000; 223#25000; 459#50000;
  237#25000; 979#100000; 51#5000; 73#10000; 27#2500; 19#2500; 23#2000; 81#10000; 123#10000; 89#10000; 129#10000;
  99#10000; 67#5000; 107#10000; 57#5000; 69#5000; 111#10000; 141#10000; 111#10000; 143#10000; 97#10000; 9#625;
  17#2000; 141#10000; 83#10000; 139#10000; 6#625; 59#5000; 9#1000; 69#5000; 93#10000; 139#10000; 159#10000; 71#5000;
  53#5000; 3#400; 29#2000; 13#2000; 37#2500; 17#2500; 19#1250; 7#1000; 73#10000; 109#10000; 19#2500; 29#2500;
  19#2500; 83#10000; 31#2500; 87#10000; 33#2500; 93#10000; 103#10000; 149#10000; 159#10000; 169#10000; 199#10000;
  9#500; 12#625; 51#2500; 113#5000; 109#5000; 29#1250; 61#2500; 123#5000; 131#5000; 279#10000; 281#10000; 297#10000;
  79#2500; 67#2000; 337#10000; 359#10000; 187#5000; 191#5000; 407#10000; 437#10000; 433#10000; 461#10000; 231#5000;
  491#10000; 523#10000; 13#250; 139#2500; 37#625; 289#5000; 631#10000; 13#200; 363#5000; 17#250; 3#40; 41#500; 9#100;
  23#250; 47#500; 49#500; 107#1000; 113#1000; 3#25; 16#125; 137#1000; 18#125; 39#250; 169#1000; 9#50; 19#100;
  101#500; 109#500; 233#1000; 1#4; 27#100; 141#500; 13#40; 3#10; 161#500; 3#8; 343#1000; 183#500; 217#500; 77#200;
  51#125; 43#100; 12#25; 9#20; 47#100; 241#500; 53#100; 497#1000; 117#200; 613#1000; 129#200; 677#1000; 89#125;
  731#1000; 3#4; 763#1000; 96#125; 153#200; 151#200; 737#1000; 717#1000; 703#1000; 87#125; 699#1000; 711#1000;
  739#1000; 771#1000; 799#1000; 101#125; 159#200; 31#40; 151#200; 747#1000; 383#500; 793#1000; 103#125; 861#1000;
  437#500; 859#1000; 81#100; 359#500; 569#1000; 113#200; 309#500; 29#40; 457#500; 111#100; 142#125; 113#100; 209#200;
  37#40; 81#100; 143#200; 23#50; 323#1000; 59#250; 21#125; 119#1000; 77#1000; 561#10000; 43#1000; 339#10000;
  271#10000; 57#2500; 189#10000; 39#2500; 33#2500; 109#10000; 419#50000; 557#100000; 317#100000; 7#5000; 463#1000000;
  61#500000; 1#31250; 47#10000000; 93#2500; 237#5000; 48#625; 33#250; 27#125; 323#1000; 223#500; 553#1000; 127#200;
  88#125; 771#1000; 21#25; 903#1000; 489#500; 107#100; 117#100; 33#25; 153#100; 37#20; 227#100; 51#20; 263#100;
  113#50; 33#20; 481#500; 509#1000; 231#1000; 51#500; 23#500; 253#5000; 31#400; 29#250; 19#125; 51#250; 267#1000;
  323#1000; 341#1000; 1753#1000; 1789#1000; 1811#1000; 181#100; 1779#1000; 439#250; 849#500; 1643#1000; 799#500;
  311#200; 751#500; 29#20; 1401#1000; 1337#1000; 247#200; 1161#1000; 21#20; 8857#10000; 827#1250; 5777#10000;
  7517#10000; 501#500; 371#250; 577#250; 367#125; 364#125; 2739#1000; 2537#1000; 597#250; 571#250; 221#100;
  2147#1000; 21#10; 1967#1000; 981#500; 1959#1000; 1957#1000; 391#200].
(** lines 358-386 *)
Definition Si_En : list Q := [
  2000#1; 1952#1; 1905#1; 1860#1; 1815#1; 1772#1; 1730#1; 1688#1; 1648#1; 1609#1; 1570#1; 1533#1; 1496#1; 1460#1;
  1426#1; 1392#1; 1358#1; 1326#1; 1294#1; 1263#1; 1233#1; 1204#1; 1175#1; 1147#1; 1119#1; 1093#1; 1067#1; 1041#1;
  1016#1; 992#1; 968#1; 945#1; 923#1; 901#1; 879#1; 858#1; 818#1; 798#1; 779#1; 760#1; 742#1; 725#1; 707#1; 690#1;
  674#1; 658#1; 642#1; 627#1; 612#1; 597#1; 583#1; 569#1; 555#1; 542#1; 529#1; 516#1; 504#1; 492#1; 480#1; 469#1;
  458#1; 447#1; 436#1; 426#1; 415#1; 406#1; 396#1; 386#1; 377#1; 368#1; 359#1; 351#1; 342#1; 334#1; 326#1; 318#1;
  311#1; 303#1; 296#1; 289#1; 282#1; 275#1; 269#1; 262#1; 256#1; 250#1; 244#1; 238#1; 232#1; 227#1; 221#1; 216#1;
  211#1; 206#1; 201#1; 196#1; 191#1; 187#1; 182#1; 178#1; 174#1; 170#1; 166#1; 162#1; 158#1; 154#1; 150#1; 147#1;
  143#1; 140#1; 136#1; 133#1; 130#1; 127#1; 124#1; 121#1; 118#1; 115#1; 112#1; 110#1; 107#1; 104#1; 102#1; 508#5;
  504#5; 100#1; 9919#100; 492#5; 4843#50; 9537#100; 9393#100; 9117#100; 2214#25; 4133#50; 7749#100; 7293#100;
  1722#25; 3263#50; 6199#100; 1476#25; 1409#25; 5391#100; 2583#50; 4959#100; 4769#100; 1148#25; 1107#25; 171#4;
  4133#100; 40#1; 155#4; 3757#100; 3647#100; 1771#50; 861#25; 3351#100; 3263#100; 3179#100; 31#1; 756#25; 738#25;
  2883#100; 1409#50; 551#20; 539#20; 1319#50; 2583#100; 253#10; 124#5; 2431#100; 596#25; 2339#100; 574#25; 1127#50;
  1107#50; 87#4; 1069#50; 2101#100; 1033#50; 2033#100; 20#1; 492#25; 39#2; 1937#100; 1907#100; 19#1; 37#2; 18#1;
  71#4; 35#2; 69#4; 17#1; 84#5; 167#10; 83#5; 33#2; 65#4; 16#1; 63#4; 31#2; 61#4; 15#1; 59#4; 29#2; 57#4; 14#1; 55#4;
  27#2; 53#4; 13#1; 51#4; 25#2; 49#4; 12#1; 47#4; 23#2; 45#4; 11#1; 43#4; 21#2; 41#4; 10#1; 39#4; 19#2; 37#4; 9#1;
  35#4; 17#2; 33#4; 8#1; 31#4; 15#2; 29#4; 7#1; 27#4; 13#2; 25#4; 6#1; 29#5; 28#5; 11#2; 27#5; 53#10; 26#5; 51#10;
  5#1; 1107#1000; 271#250; 1033#1000; 9037#10000; 1107#1250; 8093#10000; 7749#10000; 731#1000; 861#1250; 6199#10000;
  5087#10000; 4959#10000; 571#1250; 4133#10000; 3753#10000; 1813#5000; 1771#5000; 31#100; 31#125; 1033#5000;
  1771#10000; 31#200; 689#5000; 31#250; 287#3125; 171#2000; 1653#20000; 6199#100000; 4959#100000; 1023#25000;
  31#1250; 62#3125; 217#12500; 93#6250; 341#25000; 31#2500; 9919#1000000; 743#100000; 6199#1000000; 4959#1000000;
  93#25000].
(** lines 387-424 *)
Definition Si_n : list Q := [
  199981#200000; 999913#1000000; 499961#500000; 249983#250000; 999911#1000000; 199977#200000; 499937#500000;
  999863#1000000; 499927#500000; 249961#250000; 499917#500000; 62489#62500; 499907#500000; 999803#1000000;
  62487#62500; 999781#1000000; 999769#1000000; 249939#250000; 999743#1000000; 999729#1000000; 199943#200000;
  9997#10000; 249921#250000; 999667#1000000; 999649#1000000; 999631#1000000; 249903#250000; 999591#1000000;
  99957#100000; 249887#250000; 249881#250000; 1999#2000; 499737#500000; 999447#1000000; 499709#500000; 249847#250000;
  39973#40000; 999289#1000000; 999253#1000000; 499607#500000; 499587#500000; 499567#500000; 62443#62500;
  999041#1000000; 99899#100000; 49947#50000; 99889#100000; 99883#100000; 49939#50000; 99871#100000; 19973#20000;
  49929#50000; 99851#100000; 99843#100000; 24959#25000; 99827#100000; 99819#100000; 9981#10000; 499#500;
  99791#100000; 99781#100000; 9977#10000; 99759#100000; 24937#25000; 19947#20000; 99723#100000; 9971#10000;
  19939#20000; 49841#50000; 99667#100000; 99651#100000; 24909#25000; 99619#100000; 49801#50000; 19917#20000;
  49783#50000; 99549#100000; 12441#12500; 99509#100000; 99489#100000; 24867#25000; 49723#50000; 99427#100000;
  99403#100000; 49691#50000; 99361#100000; 99339#100000; 49659#50000; 3103#3125; 99277#100000; 49627#50000;
  24809#25000; 99219#100000; 49603#50000; 12399#12500; 99179#100000; 99169#100000; 99167#100000; 24791#25000;
  24791#25000; 99167#100000; 12397#12500; 19847#20000; 19847#20000; 99287#100000; 4967#5000; 12423#12500;
  19883#20000; 4973#5000; 12437#12500; 99549#100000; 49797#50000; 19929#20000; 19941#20000; 99773#100000; 6241#6250;
  49979#50000; 1251#1250; 1253#1250; 10039#10000; 1007#1000; 2533#2500; 10241#10000; 41#40; 103#100; 129#125;
  517#500; 517#500; 517#500; 103#100; 511#500; 126#125; 1#1; 993#1000; 991#1000; 247#250; 197#200; 491#500; 489#500;
  122#125; 243#250; 121#125; 241#250; 24#25; 239#250; 119#125; 947#1000; 471#500; 937#1000; 93#100; 37#40; 459#500;
  913#1000; 453#500; 899#1000; 893#1000; 177#200; 877#1000; 869#1000; 43#50; 853#1000; 843#1000; 417#500; 103#125;
  407#500; 803#1000; 99#125; 389#500; 383#500; 94#125; 737#1000; 361#500; 353#500; 691#1000; 27#40; 659#1000;
  161#250; 627#1000; 61#100; 59#100; 71#125; 549#1000; 271#500; 53#100; 513#1000; 257#500; 97#200; 91#200; 11#25;
  213#500; 411#1000; 397#1000; 193#500; 379#1000; 187#500; 369#1000; 357#1000; 69#200; 333#1000; 323#1000; 313#1000;
  38#125; 37#125; 36#125; 281#1000; 11#40; 269#1000; 53#200; 261#1000; 129#500; 32#125; 51#200; 32#125; 257#1000;
  259#1000; 263#1000; 267#1000; 34#125; 139#500; 143#500; 59#200; 153#500; 159#500; 83#250; 87#250; 367#1000;
  389#1000; 207#500; 111#250; 239#500; 517#1000; 563#1000; 309#500; 341#500; 189#250; 847#1000; 121#125; 111#100;
  31#25; 7#5; 151#100; 41#25; 7#4; 89#50; 43#25; 42#25; 35361#10000; 7059#2000; 35193#10000; 35007#10000; 8719#2500;
  2174#625; 3471#1000; 8661#2500; 17289#5000; 3449#1000; 17217#5000; 4303#1250; 34393#10000; 34361#10000; 6867#2000;
  34327#10000; 34321#10000; 17147#5000; 34261#10000; 17121#5000; 34231#10000; 2139#625; 34219#10000; 6843#2000;
  34209#10000; 2138#625; 34207#10000; 8551#2500; 34201#10000; 171#50; 34197#10000; 6839#2000; 2137#625; 3419#1000;
  8547#2500; 6837#2000; 1709#500; 3417#1000; 6833#2000; 427#125; 6831#2000].
(** lines 425-461 *)
Definition Si_Ek : list Q := [
  2000#1; 1952#1; 1905#1; 1860#1; 1815#1; 1772#1; 1730#1; 1688#1; 1648#1; 1609#1; 1570#1; 1533#1; 1496#1; 1460#1;
  1426#1; 1392#1; 1358#1; 1326#1; 1294#1; 1263#1; 1233#1; 1204#1; 1175#1; 1147#1; 1119#1; 1093#1; 1067#1; 1041#1;
  1016#1; 992#1; 968#1; 945#1; 923#1; 901#1; 879#1; 858#1; 818#1; 798#1; 779#1; 760#1; 742#1; 725#1; 707#1; 690#1;
  674#1; 658#1; 642#1; 627#1; 612#1; 597#1; 583#1; 569#1; 555#1; 542#1; 529#1; 516#1; 504#1; 492#1; 480#1; 469#1;
  458#1; 447#1; 436#1; 426#1; 415#1; 406#1; 396#1; 386#1; 377#1; 368#1; 359#1; 351#1; 342#1; 334#1; 326#1; 318#1;
  311#1; 303#1; 296#1; 289#1; 282#1; 275#1; 269#1; 262#1; 256#1; 250#1; 244#1; 238#1; 232#1; 227#1; 221#1; 216#1;
  211#1; 206#1; 201#1; 196#1; 191#1; 187#1; 182#1; 178#1; 174#1; 170#1; 166#1; 162#1; 158#1; 154#1; 150#1; 147#1;
  143#1; 140#1; 136#1; 133#1; 130#1; 127#1; 124#1; 121#1; 118#1; 115#1; 112#1; 110#1; 107#1; 104#1; 102#1; 508#5;
  504#5; 100#1; 9919#100; 492#5; 4843#50; 9537#100; 9393#100; 9117#100; 2214#25; 4133#50; 7749#100; 7293#100;
  1722#25; 3263#50; 6199#100; 1476#25; 1409#25; 5391#100; 2583#50; 4959#100; 4769#100; 1148#25; 1107#25; 171#4;
  4133#100; 40#1; 155#4; 3757#100; 3647#100; 1771#50; 861#25; 3351#100; 3263#100; 3179#100; 31#1; 756#25; 738#25;
  2883#100; 1409#50; 551#20; 539#20; 1319#50; 2583#100; 253#10; 124#5; 2431#100; 596#25; 2339#100; 574#25; 1127#50;
  1107#50; 87#4; 1069#50; 2101#100; 1033#50; 2033#100; 20#1; 492#25; 39#2; 1937#100; 1907#100; 19#1; 37#2; 18#1;
  71#4; 35#2; 69#4; 17#1; 84#5; 167#10; 83#5; 33#2; 65#4; 16#1; 63#4; 31#2; 61#4; 15#1; 59#4; 29#2; 57#4; 14#1; 55#4;
  27#2; 53#4; 13#1; 51#4; 25#2; 49#4; 12#1; 47#4; 23#2; 45#4; 11#1; 43#4; 21#2; 41#4; 10#1; 39#4; 19#2; 37#4; 9#1;
  35#4; 17#2; 33#4; 8#1; 31#4; 15#2; 29#4; 7#1; 27#4; 13#2; 25#4; 6#1; 29#5; 28#5; 11#2; 27#5; 53#10; 26#5; 51#10;
  5#1; 2#1; 19#10; 9#5; 17#10; 8#5; 3#2; 7#5; 13#10; 6#5; 571#1250; 3263#10000; 31#125; 1209#5000; 589#2500;
  1147#5000; 279#1250; 217#1000; 527#2500; 1023#5000; 124#625; 961#5000; 93#500; 899#5000; 217#1250; 837#5000;
  403#2500; 31#200; 93#625; 279#2000; 1389#10000; 86#625; 341#2500; 1339#10000; 657#5000; 1289#10000; 253#2000;
  31#250; 243#2000; 1203#10000; 119#1000; 589#5000; 233#2000; 1141#10000; 279#2500; 1103#10000; 1091#10000;
  1079#10000; 533#5000; 527#5000; 1041#10000; 1029#10000; 1017#10000; 251#2500; 9919#100000; 1959#20000; 9671#100000;
  9547#100000; 9423#100000; 9299#100000; 367#4000; 9051#100000; 8927#100000; 8803#100000; 8679#100000; 1711#20000;
  8431#100000; 8307#100000; 8183#100000; 8059#100000; 1587#20000; 7811#100000; 7687#100000; 7563#100000; 7513#100000;
  7439#100000; 1463#20000; 7191#100000; 7067#100000; 6943#100000; 1339#20000; 6447#100000; 6199#100000; 5951#100000;
  5703#100000; 1091#20000; 5207#100000; 4959#100000; 967#20000; 4711#100000; 4587#100000; 4463#100000; 843#20000;
  62#3125; 217#12500; 93#6250; 31#2500; 279#25000; 9919#1000000; 8679#1000000; 743#100000; 6199#1000000; 4959#1000000].
(** lines 462-510 *)
Definition Si_k : list Q := [
  319#10000000; 173#5000000; 47#1250000; 51#1250000; 393#100000000; 27#6250000; 237#50000000; 13#2500000;
  57#10000000; 39#6250000; 137#20000000; 749#100000000; 411#50000000; 899#100000000; 981#100000000; 107#10000000;
  117#10000000; 1#78125; 7#500000; 153#10000000; 167#10000000; 183#10000000; 1#50000; 109#5000000; 239#10000000;
  13#500000; 71#2500000; 31#1000000; 339#10000000; 37#1000000; 101#2500000; 441#10000000; 3#62500; 131#2500000;
  573#10000000; 1#16000; 371#5000000; 811#10000000; 221#2500000; 483#5000000; 21#200000; 57#500000; 1#8000;
  17#125000; 37#250000; 161#1000000; 11#62500; 191#1000000; 13#62500; 227#1000000; 247#1000000; 269#1000000;
  147#500000; 319#1000000; 347#1000000; 379#1000000; 411#1000000; 447#1000000; 487#1000000; 527#1000000; 143#250000;
  311#500000; 677#1000000; 367#500000; 801#1000000; 863#1000000; 939#1000000; 51#50000; 111#100000; 3#2500;
  131#100000; 141#100000; 153#100000; 83#50000; 9#5000; 39#20000; 21#10000; 229#100000; 247#100000; 267#100000;
  9#3125; 313#100000; 21#6250; 73#20000; 393#100000; 423#100000; 457#100000; 247#50000; 267#50000; 57#10000;
  619#100000; 663#100000; 89#12500; 763#100000; 409#50000; 879#100000; 473#50000; 1#100; 107#10000; 57#5000;
  121#10000; 8#625; 29#2000; 29#2000; 19#1250; 157#10000; 81#5000; 83#5000; 43#2500; 177#10000; 183#10000; 47#2500;
  97#5000; 1#50; 103#5000; 53#2500; 219#10000; 113#5000; 233#10000; 239#10000; 247#10000; 16#625; 131#5000; 3#125;
  1#200; 77#50000; 1#1000; 51#50000; 109#100000; 113#100000; 3#2500; 13#10000; 143#100000; 89#50000; 43#20000;
  127#50000; 297#100000; 343#100000; 393#100000; 443#100000; 1#200; 553#100000; 61#10000; 67#10000; 73#10000;
  157#20000; 21#2500; 9#1000; 19#2000; 1#100; 13#1250; 1#100; 113#10000; 117#10000; 121#10000; 31#2500; 8#625;
  33#2500; 27#2000; 69#5000; 71#5000; 147#10000; 19#1250; 79#5000; 21#1250; 89#5000; 12#625; 41#2000; 223#10000;
  243#10000; 33#1250; 73#2500; 13#400; 73#2000; 81#2000; 91#2000; 51#1000; 29#500; 13#200; 37#500; 411#4000; 93#1000;
  7#50; 1#10; 113#1000; 163#1000; 189#1000; 219#1000; 237#1000; 51#200; 11#40; 37#125; 157#500; 323#1000; 333#1000;
  171#500; 367#1000; 197#500; 421#1000; 9#20; 479#1000; 51#100; 541#1000; 573#1000; 607#1000; 641#1000; 677#1000;
  357#500; 94#125; 99#125; 833#1000; 7#8; 459#500; 963#1000; 101#100; 53#50; 111#100; 29#25; 121#100; 63#50; 33#25;
  69#50; 29#20; 151#100; 79#50; 83#50; 173#100; 91#50; 19#10; 2#1; 21#10; 221#100; 58#25; 49#20; 129#50; 273#100;
  289#100; 61#20; 159#50; 333#100; 17#5; 86#25; 171#50; 84#25; 171#50; 179#50; 37#1250; 3#125; 9#400; 197#10000;
  71#5000; 1#80; 31#4000; 113#50000; 107#100000; 1#400000000; 13#1000000000; 199#1000000000; 141#500000000;
  297#1000000000; 163#500000000; 197#500000000; 81#200000000; 417#1000000000; 141#250000000; 423#500000000;
  87#50000000; 133#50000000; 49#2000000; 71#4000000; 81#5000000; 531#20000000; 153#10000000; 241#10000000;
  161#2500000; 419#5000000; 423#5000000; 1287#20000000; 59#1250000; 3#80000; 367#10000000; 121#2500000; 169#2500000;
  109#1000000; 61#500000; 31#250000; 61#500000; 127#1000000; 83#500000; 101#500000; 13#62500; 101#500000;
  201#1000000; 173#1000000; 153#1000000; 9#62500; 177#1000000; 103#500000; 197#1000000; 177#1000000; 207#1000000;
  107#500000; 227#1000000; 239#1000000; 259#1000000; 39#125000; 303#1000000; 221#1000000; 157#1000000; 51#500000;
  7#62500; 1#8000; 31#250000; 141#1000000; 19#125000; 41#250000; 101#200000; 963#1000000; 111#100000; 1#800;
  179#250000; 209#500000; 73#200000; 83#200000; 6#15625; 17#50000; 159#500000; 143#500000; 111#500000; 39#250000;
  127#1000000; 53#500000; 183#2000000; 939#10000000; 21#200000; 7#62500; 27#250000; 27#250000; 17#100000; 19#100000;
  23#100000; 29#100000; 7#20000; 43#100000; 11#20000; 9#12500; 1#1000; 7#5000].
(** lines 515-519 *)
Definition Si3N4_eV : list Q := [
  24#1; 23#1; 22#1; 21#1; 20#1; 19#1; 18#1; 17#1; 16#1; 15#1; 14#1; 13#1; 12#1; 11#1; 21#2; 10#1; 19#2; 9#1; 17#2;
  8#1; 31#4; 15#2; 29#4; 7#1; 27#4; 13#2; 25#4; 6#1; 23#4; 11#2; 21#4; 5#1; 19#4; 9#2; 17#4; 4#1; 7#2; 3#1; 5#2; 2#1;
  3#2; 1#1].
(** lines 520-526 *)
Definition Si3N4_n : list Q := [
  131#200; 5#8; 611#1000; 617#1000; 127#200; 169#250; 147#200; 81#100; 451#500; 1001#1000; 1111#1000; 1247#1000;
  1417#1000; 1657#1000; 1827#1000; 2#1; 1081#500; 1163#500; 623#250; 2651#1000; 2711#1000; 2753#1000; 1383#500;
  344#125; 681#250; 1341#500; 131#50; 2541#1000; 308#125; 2393#1000; 2331#1000; 1139#500; 1117#500; 1099#500;
  2167#1000; 2141#1000; 2099#1000; 1033#500; 2041#1000; 1011#500; 251#125; 999#500].
(** lines 527-532 *)
Definition Si3N4_k : list Q := [
  21#50; 481#1000; 14#25; 647#1000; 743#1000; 841#1000; 117#125; 103#100; 111#100; 59#50; 63#50; 27#20; 143#100;
  38#25; 153#100; 149#100; 36#25; 33#25; 29#25; 481#500; 433#500; 3#4; 153#250; 493#1000; 19#50; 273#1000; 87#500;
  51#500; 57#1000; 29#1000; 11#1000; 49#10000; 3#2500; 23#100000; 0#1; 0#1; 0#1; 0#1; 0#1; 0#1; 0#1; 0#1].
