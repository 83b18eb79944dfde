(** Tables of the tetrahedron quadrature, generated from
    libdiskpp/contrib/jburkardt/src/tetrahedron_arbq_rule.cpp (the printed
    decimals are read as exact rationals).  The source keeps four arrays xs, ys,
    zs, ws per rule; here they are zipped into rows (x, y, z, w). *)
From Coq Require Import List QArith.
Import ListNotations.
Open Scope Q_scope.

Definition arbq_row := (Q * Q * Q * Q)%type.
(** tetrahedron_arbq_rule.cpp:629-682 *)
Definition arbq_rule_1 : list arbq_row := [
  (0, 0, 0, 0.9709835434146467) ].
(** tetrahedron_arbq_rule.cpp:685-742 *)
Definition arbq_rule_2 : list arbq_row := [
  ((-0.2677028585910073), 0.5939017006199488e-1, (-0.396942694114215), 0.2918008865477151);
  (0.1510931841533142, 0.4354087732476309, 0.2151719254306919, 0.2706884392356724);
  ((-0.136769919523739), (-0.328034111559041), 0.2950846519937133, 0.309834960175347);
  (0.8067449309051964, (-0.3400977314285288), (-0.343037895100255), 0.9865925745591227e-1) ].
(** tetrahedron_arbq_rule.cpp:745-806 *)
Definition arbq_rule_3 : list arbq_row := [
  ((-0.1685037180276), 0.1910914916271708, (-0.3896267314585163), 0.1287213727402025);
  (0.2783799427534418e-1, (-0.2304932838839657e-1), 0.548135066324183, 0.2179034339695993);
  ((-0.3512216177343445), 0.1835144026339993, 0.5147815330343534e-1, 0.1243503792062836);
  (0.4308532463549043, (-0.2474715823180446), (-0.1683315641007033), 0.2446917182410072);
  ((-0.4676763747967377), (-0.4235250827264375), (-0.1586973077889307), 0.1365439875826512);
  (0.1492831253848431, 0.6397847685164516, (-0.1080219253055393), 0.1187726516749031) ].
(** tetrahedron_arbq_rule.cpp:809-882 *)
Definition arbq_rule_4 : list arbq_row := [
  ((-0.1459612280979987e-1), 0.2426564579199708e-2, 0.7093565780103633, 0.1033787090646894);
  ((-0.2937244896309993), 0.1764396506764613, 0.1108860494941134, 0.1070356256090164);
  (0.3230878337158274, (-0.1932070410956556), 0.169542639670465, 0.150479258274094);
  ((-0.8819654179396583e-1), 0.2317884270105980e-1, (-0.2011819391325586), 0.1877987156186583);
  (0.127020366331471, 0.5451410677215219, 0.1309503990759315, 0.7395274312521298e-1);
  ((-0.4414307688091184), (-0.384822563159018), 0.9225429679162532e-1, 0.7712199925411270e-1);
  (0.3939418589633429, 0.206874467063953, (-0.3111560426198242), 0.6745419368701999e-1);
  ((-0.6034469714614210e-1), (-0.457373907492708), (-0.3302215329322376), 0.5819413648173244e-1);
  ((-0.8914059834601185e-1), 0.7268092659599459, (-0.3507931737363739), 0.5378646711152148e-1);
  (0.654521303360376, (-0.3970356243870571), (-0.2970424833951137), 0.5366953183949744e-1);
  ((-0.7307642259677857), (-0.2669420088648982), (-0.3861037570241846), 0.3811216334909158e-1) ].
(** tetrahedron_arbq_rule.cpp:885-962 *)
Definition arbq_rule_5 : list arbq_row := [
  (0.1664180721577685e-15, 0.1094362324146226e-15, 0.770436782529672, 0.7136053542145054e-1);
  (0.4089925917487008, (-0.236131982942675), 0.3339410527875835, 0.4131148601232373e-1);
  (0.6338467275429999e-16, 0.47226396588535, 0.3339410527875834, 0.4131148601232375e-1);
  ((-0.4089925917487006), (-0.236131982942675), 0.3339410527875834, 0.4131148601232376e-1);
  (0.3723900931035782e-16, 0.3548001489301807e-16, (-0.2982788694307592), 0.1094181214137256);
  ((-0.2435436770532023), 0.1406100075060977, 0.9942628981025299e-1, 0.1094181214137255);
  (0.7718657600705262e-17, (-0.2812200150121953), 0.9942628981025306e-1, 0.1094181214137255);
  (0.2435436770532026, 0.1406100075060977, 0.9942628981025299e-1, 0.1094181214137255);
  (0.629058998756435, (-0.3631873822681842), (-0.256812260843224), 0.7136053542145050e-1);
  ((-0.6290589987564351), (-0.3631873822681841), (-0.2568122608432239), 0.7136053542145052e-1);
  ((-0.1407768953799327e-15), 0.7263747645363684, (-0.2568122608432239), 0.7136053542145050e-1);
  (0.4089925917487006, 0.236131982942675, (-0.3339410527875835), 0.4131148601232370e-1);
  ((-0.1047965211464895e-15), (-0.47226396588535), (-0.3339410527875834), 0.4131148601232373e-1);
  ((-0.4089925917487007), 0.236131982942675, (-0.3339410527875835), 0.4131148601232375e-1) ].
(** tetrahedron_arbq_rule.cpp:965-1062 *)
Definition arbq_rule_6 : list arbq_row := [
  (0.4919941951523113e-2, (-0.1392238503430922e-1), 0.1066228263967720e1, 0.6889900028407776e-2);
  (0.3415058060219544e-1, 0.2542073830543402, 0.6315886967039234, 0.3059511845881479e-1);
  ((-0.4561198328617235), (-0.3110385447445375), 0.2300267655106985, 0.2352818079375775e-1);
  (0.2144499229769493, (-0.1234903873249722), 0.5632351636302827, 0.4747145913756433e-1);
  ((-0.1540693059995943), (-0.6865214472302168e-1), 0.6206264896282621, 0.5149448476741100e-1);
  (0.3064525403222947, 0.1818495501923178, 0.1254685876442911, 0.4198464552012798e-1);
  ((-0.1305882959514773e-1), (-0.2488891169073396e-1), (-0.3357705926282663), 0.6518777271610311e-1);
  (0.1535244689838072e-1, (-0.3261143100532925), 0.1147788985927003, 0.5808554412413398e-1);
  ((-0.156778448777534), 0.2522454301000923, 0.2140597800705522, 0.6079762507769643e-1);
  ((-0.3973616940506757), (-0.1977159083378496), (-0.7963361802882329e-1), 0.6246727661754427e-1);
  (0.9764884616649552e-2, 0.6504184291133676, 0.5868446281578688e-2, 0.4232555916776466e-1);
  ((-0.5228087984647453), (-0.6635055304123420e-1), 0.1934272688455952e-2, 0.2191089157324707e-1);
  (0.5565605702210328, (-0.3186690054220115), 0.1379740251424839e-1, 0.4526058614388953e-1);
  (0.8423081979023464e-1, 0.2138059822864521e-1, 0.3195756126912550e-1, 0.1093321687620292);
  (0.2174166091160236, 0.4599507004997997, (-0.3027232303753162), 0.5237000773398501e-1);
  (0.3212158945225647, (-0.4260052421545051), (-0.2994855602604263), 0.4832452079715138e-1);
  ((-0.2593648078545398), 0.3851980211137577, (-0.2825197099253122), 0.6123639953387314e-1);
  (0.5636454767202584, (-0.1111606227821696), (-0.3068140495300409), 0.4577996169297793e-1);
  ((-0.6410949644625729), (-0.1934318338507612), (-0.3660473605161587), 0.2476427914920903e-1);
  ((-0.3344151090582155), (-0.4491758699723651), (-0.3102423292746128), 0.3856173525882120e-1);
  ((-0.1894588386892019e-1), 0.9010599459930961, (-0.3473952050436902), 0.1546337820963114e-1);
  ((-0.8214655896199351), (-0.5109860359355179), (-0.2635645240101362), 0.1012088745519476e-1);
  (0.8597415475615655, (-0.5208085141225744), (-0.3603432585369335), 0.7031160695311595e-2) ].
(** tetrahedron_arbq_rule.cpp:1065-1178 *)
Definition arbq_rule_7 : list arbq_row := [
  ((-0.308252291356292), (-0.1978432879678884), 0.655377140534142, 0.7484517057961263e-2);
  (0.3230068564765168, (-0.1166608144800289), 0.5963217268212818, 0.1165548467333077e-1);
  (0.1790030943099486e-2, 0.2760223041671345e-2, 0.9191670342435462, 0.2254313978794985e-1);
  ((-0.1749858562850217), 0.1492553071272583, 0.5162921387398244, 0.2176106698437745e-1);
  (0.3515818224512229e-1, 0.322257000983196, 0.5492103599470217, 0.2261516504544270e-1);
  ((-0.1148912802505062), 0.3598150246997987e-1, (-0.388691765396646), 0.2653689704536702e-1);
  (0.1080242619580473, (-0.2123211082745265), 0.5138214657068572, 0.2796071748247393e-1);
  (0.9960886019209524e-1, 0.3370600346165786, (-0.2732502226402171), 0.4174371077929897e-1);
  (0.255258965717304, 0.2345931387652712e-1, (-0.1289266426427488), 0.5125012874361469e-1);
  (0.3018972093964544, (-0.2797440812728529), (-0.3368155028155599), 0.4062452567161350e-1);
  ((-0.3637995251662868e-1), 0.6784158147792628, 0.4965154590499942e-1, 0.2011109093086575e-1);
  ((-0.1979748432674351), (-0.1099260120706853), 0.368810136731088, 0.5855177928202636e-1);
  (0.1705547608587194, 0.5854481149716676e-1, 0.3245398450336227, 0.6477548431925077e-1);
  (0.5382714575357732, (-0.332620243815606), 0.6530998463389483e-1, 0.3049968783939012e-1);
  ((-0.5826255951559661), (-0.28663942886696), 0.4050073689194288e-1, 0.2749125083938057e-1);
  ((-0.6638827484255140e-1), 0.3396643732745171, 0.4339137621154699e-1, 0.6480294592357103e-1);
  (0.1394865450483365, (-0.3078502318368667), (-0.8554188228126980e-2), 0.6232630627722486e-1);
  ((-0.2525448211561483), (-0.9687707852320762e-1), (-0.1212234343128167), 0.7994900688083093e-1);
  ((-0.3364179479356783), (-0.4222809305623556), 0.2244936992133664e-1, 0.2026705321864424e-1);
  (0.5088174095091343, (-0.4607960014652947e-1), (-0.5389155149780182e-1), 0.2384971520555609e-1);
  ((-0.3997676771299581), 0.1694117934001565, (-0.1331769110761944e-1), 0.2170019222676944e-1);
  (0.2233579208997628, 0.5070263922318456, (-0.3996173060097081e-1), 0.2153672490681497e-1);
  ((-0.2887689832327979), (-0.4320411612241725), (-0.3304370757138854), 0.3586406280991152e-1);
  (0.2430056805988458, 0.5262155488082486, (-0.3633697548034391), 0.1621736817489311e-1);
  ((-0.2402459184668794), 0.4919239659783042, (-0.3184670075538235), 0.3281522904442925e-1);
  ((-0.5737122495168941), (-0.7453182334351910e-1), (-0.3348000741414298), 0.2724694235165297e-1);
  (0.5530740586345179, (-0.3355026530466742e-2), (-0.3507444035401421), 0.2048072851756261e-1);
  (0.7632160871540358, (-0.4345394288375978), (-0.3120479891575616), 0.1999288967511468e-1);
  (0.1108323525316276e-2, 0.8835815093231754, (-0.315533688400763), 0.1864561424137827e-1);
  ((-0.7666589725519221), (-0.4540327424996255), (-0.3148702231578014), 0.1753312507928042e-1);
  (0.3314379268437029, (-0.5419034033722774), (-0.3104410268762152), 0.1215099239866789e-1) ].
(** tetrahedron_arbq_rule.cpp:1181-1318 *)
Definition arbq_rule_8 : list arbq_row := [
  ((-0.1611772551670525e-1), 0.7998600119500696e-3, 0.1140750120480647e1, 0.1694544493019982e-2);
  ((-0.7148827236840712e-2), 0.172391459500714, 0.7860696072793454, 0.1462667227182682e-1);
  (0.4589923372088558, (-0.1744716351651229), (-0.3991430912330994), 0.9589935274093377e-2);
  ((-0.4520990492494178), (-0.2632941629071404), 0.3536092960240441, 0.9835015847019813e-2);
  (0.1109560356430631, (-0.6295720376005641e-1), 0.8189404142301465, 0.1710148279355958e-1);
  (0.182522429364889, 0.1678382818593359, 0.4764962716361752, 0.1516325692442914e-1);
  ((-0.1507489805419971), (-0.7826941873249307e-1), 0.7628974295081231, 0.1746691605511999e-1);
  ((-0.28773247348786), (-0.1234686974783635), (-0.3880058323817796), 0.1604974314640067e-1);
  (0.3680747212378487, (-0.2169876766339741), 0.3997553695274408, 0.2185156320663785e-1);
  (0.4788156424890513, (-0.4629437300594242e-1), 0.1144656464995089, 0.1242799062066869e-1);
  ((-0.3478779367400819), (-0.1295630336164733), 0.2509171968778639, 0.2646409426919389e-1);
  ((-0.3548285868734744e-1), (-0.2268108031307481), 0.4174615578343315, 0.3135597218974045e-1);
  (0.2591650442934043, 0.1330071443027294, (-0.2747778345118032), 0.2736783716876112e-1);
  ((-0.1305037378946309e-2), 0.4919409115894537, 0.303192932475321, 0.2345735439005822e-1);
  ((-0.3493996070828597e-1), 0.3001995169122194, (-0.3442503524230918), 0.3130572641601596e-1);
  ((-0.1660462859707297), 0.1407736457687509, 0.3970537434180833, 0.3548953658742431e-1);
  (0.1010085522422429, (-0.2259257575315161), (-0.3070893258601431), 0.4036134913447077e-1);
  ((-0.3587468163605144), (-0.1083199795573463), (-0.1989904396903917), 0.3792924852161072e-1);
  ((-0.3473067563985682), (-0.3742304739030127), 0.1526258958568332e-1, 0.2440963887102594e-1);
  ((-0.8635741121401184e-1), (-0.1478062482085008), (-0.1542350189843949e-3), 0.5132903383025206e-1);
  (0.2901168201778487, (-0.3449512373726749), 0.4121026001314489e-1, 0.3177764520649842e-1);
  (0.1042093355150105, 0.2883671141680468e-1, 0.3248913848279931, 0.5417358749775593e-1);
  ((-0.6419387451918364e-1), 0.2558125570853043, (-0.6957900515388780e-1), 0.5180566415546370e-1);
  ((-0.2016986972118968), 0.4404368079041183, (-0.3340987564879216e-1), 0.2633068360731991e-1);
  (0.1846170677356399, 0.3998568605285963, (-0.1303527431545757e-1), 0.3893527990282211e-1);
  (0.3788893958160157, (-0.9956585162815586e-1), (-0.8390322512212595e-1), 0.5027716272897634e-1);
  ((-0.4818716163165796), (-0.1509747383909747e-1), (-0.4501404031339341e-1), 0.2208377845212325e-1);
  (0.682171905077817, (-0.3956518618817587), (-0.7451523522744341e-1), 0.1429278762793107e-1);
  (0.3978642293015137, 0.2256616013248351, (-0.3993939022009145), 0.6697289387082959e-2);
  ((-0.6975889470159129), (-0.3899651023918449), (-0.1254210458205579), 0.1648266825522313e-1);
  (0.2742964749336314e-2, 0.8134998230879619, (-0.1415815795205319), 0.1688462952130244e-1);
  (0.1645687860050991e-1, (-0.4451036700294634), (-0.18582442994108), 0.2190464958161271e-1);
  ((-0.4618349214785903), (-0.4535647479937944), (-0.3245512424809017), 0.2281706804403004e-1);
  (0.1575090568397094, 0.6650145460171435, (-0.3317121001508232), 0.1956212468616595e-1);
  (0.5399175203215238, (-0.4674624469973033), (-0.3168159505701121), 0.1994889218942623e-1);
  ((-0.1403905262089725), 0.7012653983759632, (-0.3372150239150091), 0.1737944394368884e-1);
  (0.4453396570037857e-1, (-0.5107241847309127), (-0.3950013670511707), 0.7302913219204132e-2);
  ((-0.4234360302104348), 0.2263324997687613, (-0.3336444006035868), 0.2128832734454982e-1);
  ((-0.7214176376894034), (-0.2727155170636352), (-0.3519392970001664), 0.1333720911018169e-1);
  (0.7278118716190342, (-0.2861627803070728), (-0.3226167582915808), 0.1494192725418561e-1);
  (0.4901890779701343, 0.1856306523332632, (-0.2780042325707565), 0.1152112823254964e-1);
  ((-0.8758887352507779), (-0.556637467888742), (-0.372057779910459), 0.2472998490996246e-2);
  (0.7632377205619759e-2, 0.1056056946669113e1, (-0.397275100897422), 0.2018756899942699e-2);
  (0.9317431147169187, (-0.5664247124705913), (-0.3821073616790632), 0.1470016064285112e-2) ].
(** tetrahedron_arbq_rule.cpp:1321-1486 *)
Definition arbq_rule_9 : list arbq_row := [
  (0.2108052017103265, (-0.8955776048075967e-1), 0.7735882074261043, 0.5680408778529046e-2);
  (0.1283729355850052e-2, 0.6121197754911472e-3, 0.1020940836140086e1, 0.6887854441113948e-2);
  ((-0.2918734175018473e-1), 0.2122758579659528, 0.7799358723388078, 0.6899595536569939e-2);
  ((-0.4357949297689266), (-0.2839355480318341), 0.3644377643783332, 0.6990873936739353e-2);
  ((-0.1799341637870203), (-0.9582556152029258e-1), 0.7572044348058194, 0.1142122940842178e-1);
  (0.6942222186204158e-1, (-0.1394666680707507), 0.705548760498302, 0.1220808590880294e-1);
  ((-0.100564299113523), 0.4836397528261835, (-0.4071603611745789), 0.7651487209643779e-2);
  (0.1904855696753355, 0.3248843951738821, 0.2784337835342537, 0.9540263940869291e-2);
  (0.3231238851996552, (-0.3091097002134723), 0.3220003691351323, 0.9495638963926394e-2);
  (0.6819987943340138e-1, (-0.1799541017656358), (-0.3955135683176328), 0.1385248437188017e-1);
  (0.9708131623556143e-1, 0.1346690341273634, 0.6632209417507691, 0.1446333231867884e-1);
  (0.4246239788055203, (-0.1974037451364399), 0.3671897521183273, 0.1128763818550772e-1);
  ((-0.3569664256203109), 0.5240665094885540e-1, (-0.3747481356463467), 0.1290073048331596e-1);
  ((-0.2145752061141752), 0.2761387382865308, 0.2325932263186099, 0.1468008559737106e-1);
  ((-0.4818674305781609e-2), 0.4840041246351735, 0.3487840306818015, 0.1526131467815127e-1);
  ((-0.4314954104621454), (-0.3972752286396523), (-0.4035704541972099), 0.7960414659472547e-2);
  ((-0.1312453567417025), 0.7569076187744307e-1, 0.5374900196303547, 0.2551792590874883e-1);
  ((-0.4083558222913988), (-0.1239859742013766), 0.2654318104765763, 0.1931170779707098e-1);
  ((-0.1245612605849638), (-0.2344790300437711), 0.3698883029355781, 0.2561026230172263e-1);
  (0.1136348780330888, (-0.3305476987034425e-1), 0.4369873036895401, 0.3169262013385435e-1);
  (0.3351668846328467, 0.1770622072827525e-1, 0.1860393220233105, 0.2455872440888530e-1);
  (0.2159589333207287, 0.238524676460651, (-0.3479911186004724), 0.2465571070153197e-1);
  ((-0.1228639493897767), 0.5313763678851683e-1, (-0.2731450419753432), 0.3419839251013865e-1);
  (0.1380276243456064, 0.7344859267512056e-2, (-0.8193864872695196e-1), 0.4066027350436995e-1);
  (0.390531978382373, (-0.2434286634053894), (-0.2812924318728223), 0.3092126671144214e-1);
  ((-0.4580867844324543), (-0.2589556174266634), (-0.254631379075299), 0.2731106642703576e-1);
  (0.231022856438977, (-0.257836991797271), 0.8678030145840356e-1, 0.3711204543388613e-1);
  (0.3554068884610396, 0.1458366018963618, (-0.1428438498378993), 0.2490755526192437e-1);
  ((-0.6505241861040961e-1), (-0.3194064610603558), (-0.2156622116049685), 0.3425568258765496e-1);
  ((-0.1786506541288197), (-0.8361295659204318e-1), 0.9674903232992661e-1, 0.4767735489615401e-1);
  (0.1265104521534247e-1, 0.2789606323941811, 0.1583036737187768, 0.4389950894493362e-1);
  ((-0.4573827823867556), (-0.3620544381079852), (-0.2371578880066309e-1), 0.2234183537671572e-1);
  ((-0.5542731199877091e-1), 0.4583494650640864, (-0.2083640565350588), 0.3468016547781724e-1);
  ((-0.6387630000068671e-1), (-0.4110512725485398), (-0.1327703130967625e-1), 0.1599733331684861e-1);
  ((-0.3413749732146179), 0.1453586652323175, (-0.8664488303113425e-1), 0.3216001820424372e-1);
  (0.596607789097683, (-0.2817335623108552), (-0.7748272430107629e-1), 0.2173130208768448e-1);
  (0.6917314710518101, (-0.4244951895917183), (-0.9669501947122619e-2), 0.4172519829863862e-2);
  (0.1078283022003015e-1, 0.7740686042096789, (-0.6316745396431407e-1), 0.1261067900439839e-1);
  (0.183398357962906, 0.5096501737807261, (-0.1041997605600258), 0.2073467359947484e-1);
  ((-0.1566832100689738), 0.5871627777302516, (-0.7558004547861685e-1), 0.1259876220642243e-1);
  ((-0.7215475195156269), (-0.4069288134308984), (-0.7999199041063003e-1), 0.6842300320404830e-2);
  (0.5634418100399829, (-0.8745287448038948e-1), (-0.3751069250486347), 0.1001228308171065e-1);
  ((-0.6038175317729408), (-0.1605011166676197), (-0.1299227031705554), 0.1328037050111305e-1);
  (0.4424617155479634, (-0.4658949840050826), (-0.189272831033158), 0.1493735138014892e-1);
  (0.5376954508544742, (-0.4822919051612324), (-0.3910612496171095), 0.6932861063756816e-2);
  (0.5801674951413821, (-0.2630487459758545e-1), (-0.1907765273821742), 0.6827617690151055e-2);
  (0.141863444388837, 0.7093134008050596, (-0.3477134529420335), 0.1270616397760185e-1);
  (0.3802052805108170e-1, (-0.4981319573109797), (-0.3474543531762018), 0.1288875403806118e-1);
  ((-0.6766546338276799), (-0.1608102554139131), (-0.3606479588180986), 0.8899252930026689e-2);
  ((-0.148377942874081), 0.7476578114817578, (-0.3440499686491684), 0.8881169613715286e-2);
  (0.7588538984987838, (-0.2863864956290275), (-0.3474563411684222), 0.5288619835392034e-2);
  ((-0.4009332704109223), 0.3184909341350718, (-0.3276892436683218), 0.1284718318260967e-1);
  (0.4294022281773516, 0.3342451266830045, (-0.3542380917718721), 0.6409598847098365e-2);
  ((-0.4911820218387012), (-0.5259906817121476), (-0.304001912945509), 0.8055508398015583e-2);
  ((-0.82304366968194), (-0.4752298758892802), (-0.3440705957046394), 0.7788463427997768e-2);
  (0.8307385272442451, (-0.4894484556416516), (-0.3298160634602457), 0.6545788868966830e-2);
  (0.2847756354434797e-2, 0.9800293546928647, (-0.3378012113084769), 0.5341431206058898e-2) ].
(** tetrahedron_arbq_rule.cpp:1489-1686 *)
Definition arbq_rule_10 : list arbq_row := [
  (0.4135441926108436, (-0.2467507765313092), (-0.2246678712539802e-1), 0.2007080596188233e-1);
  (0.6920344574148628e-2, 0.4815151646539115, (-0.2246678712556187e-1), 0.2007080596192337e-1);
  ((-0.4204645371849727), (-0.2347643881227681), (-0.2246678712549978e-1), 0.2007080596192014e-1);
  (0.1212827019050737, (-0.3645574461360758), (-0.3674985430672734), 0.1202850982705908e-1);
  (0.2550746585402268, 0.2873126239566789, (-0.3674985430672704), 0.1202850982706234e-1);
  ((-0.376357360444638), 0.7724482217897545e-1, (-0.3674985430673924), 0.1202850982703673e-1);
  ((-0.4793578815415788e-3), 0.110502360149269, 0.9168884763080956, 0.6428246923028596e-2);
  ((-0.9545817212686222e-1), (-0.5566631617759855e-1), 0.9168884763077307, 0.6428246923032827e-2);
  (0.9593753000785579e-1, (-0.5483604397160680e-1), 0.9168884763085783, 0.6428246923025550e-2);
  (0.3126301401176562, 0.5156767709512212, (-0.3553336558198409), 0.5961017737373873e-2);
  ((-0.6029042538437952), 0.1290725785546668e-1, (-0.355333655819819), 0.5961017737376429e-2);
  (0.2902741137267026, (-0.5285840288063388), (-0.3553336558198354), 0.5961017737354793e-2);
  (0.1793124962974703, 0.2823324600522004, (-0.1983165808272536), 0.2466985253776778e-1);
  ((-0.3341633308670676), 0.1412294698335291e-1, (-0.198316580827563), 0.2466985253776116e-1);
  (0.1548508345696874, (-0.2964554070359728), (-0.1983165808272446), 0.2466985253775616e-1);
  (0.4006666604011494, 0.2161993077800489, (-0.1447858405450569), 0.1220343371669821e-1);
  ((-0.3875674230187136), 0.2388878524669672, (-0.1447858405451866), 0.1220343371668563e-1);
  ((-0.1309923738259358e-1), (-0.4550871602470489), (-0.1447858405451966), 0.1220343371666686e-1);
  ((-0.1159749898125322), 0.7937355713187059, (-0.3542393281108072), 0.6782282187245643e-2);
  ((-0.6294076737424348), (-0.497305073040731), (-0.3542393281107521), 0.6782282187250343e-2);
  (0.7453826635553922, (-0.2964304982776649), (-0.3542393281107588), 0.6782282187251558e-2);
  ((-0.1465165887848432), 0.6207352334853357, (-0.1251511927365907), 0.1276699476009991e-1);
  ((-0.4643141868299223), (-0.437254704706162), (-0.1251511927364737), 0.1276699476009263e-1);
  (0.6108307756147643, (-0.1834805287791172), (-0.1251511927364298), 0.1276699476009060e-1);
  (0.1526773226986329, 0.6153490109135903, (-0.1387177797398434), 0.1330898468041284e-1);
  ((-0.6092465369941313), (-0.1754520654179484), (-0.1387177797398834), 0.1330898468040929e-1);
  (0.4565692142952937, (-0.4398969454955785), (-0.1387177797396668), 0.1330898468040468e-1);
  ((-0.2349836288652037), (-0.5060230351463111), (-0.3549137865746493), 0.8872828138103311e-2);
  (0.5557206177695652, 0.4950972550220373e-1, (-0.3549137865746083), 0.8872828138107657e-2);
  ((-0.3207369889038079), 0.4565133096445042, (-0.3549137865746373), 0.8872828138112581e-2);
  (0.2617190792164227, 0.12068459539904, 0.8659130596210637e-1, 0.2604852195750169e-1);
  ((-0.2353754650695125), 0.1663130735568127, 0.8659130596171444e-1, 0.2604852195750782e-1);
  ((-0.2634361414712093e-1), (-0.2869976689562073), 0.8659130596207916e-1, 0.2604852195751094e-1);
  ((-0.1518707842414898), 0.3753807951356096, 0.2597687530320102, 0.1091598279364878e-1);
  ((-0.2491539125596758), (-0.3192143548135662), 0.259768753032135, 0.1091598279363667e-1);
  (0.4010246968008866, (-0.5616644032198326e-1), 0.2597687530322305, 0.1091598279364397e-1);
  (0.2108318943729519, (-0.1309245702301312), 0.2630632081142404, 0.2727741583607240e-1);
  (0.7968056612120857e-2, 0.2480480615696827, 0.2630632081143893, 0.2727741583609616e-1);
  ((-0.2187999509850842), (-0.1171234913398124), 0.2630632081144756, 0.2727741583610115e-1);
  ((-0.645184534114996), (-0.294850962306783), (-0.3453833089184027), 0.1214067234472188e-1);
  (0.5779406907458116, (-0.4113207155193597), (-0.3453833089183551), 0.1214067234470734e-1);
  (0.6724384336957467e-1, 0.7061716778256595, (-0.3453833089183527), 0.1214067234471387e-1);
  ((-0.1117027003111241), 0.3782781131850991, (-0.232788953429898), 0.2653047387010774e-1);
  ((-0.2717471055583957), (-0.2858764327334718), (-0.2327889534297419), 0.2653047387011107e-1);
  (0.3834498058697393, (-0.9240168045211911e-1), (-0.2327889534296802), 0.2653047387012045e-1);
  (0.2353864631064914, (-0.3263497523611192), 0.2415268120578684, 0.1147407678956960e-1);
  (0.164933944510181, 0.3670255329377183, 0.2415268120576211, 0.1147407678960903e-1);
  ((-0.4003204076167762), (-0.4067578057659137e-1), 0.2415268120576665, 0.1147407678957783e-1);
  (0.7813866474350551, (-0.4526468520348789), (-0.2133068003220094), 0.6941339438094368e-2);
  (0.1310349087707534e-2, 0.9030241128745099, (-0.2133068003224423), 0.6941339438087489e-2);
  ((-0.7826969965232643), (-0.4503772608395989), (-0.2133068003227821), 0.6941339438089641e-2);
  ((-0.1446486485942199), 0.8558659569093126e-1, 0.6055816506735499, 0.1618088676127407e-1);
  ((-0.1795841794748884e-2), (-0.1680627021511816), 0.6055816506736809, 0.1618088676125095e-1);
  (0.1464444903888344, 0.8247610646027727e-1, 0.6055816506737702, 0.1618088676125473e-1);
  (0.5662897411515679, (-0.3290715455089481), 0.1414131684170811, 0.9879744049167588e-2);
  (0.1839447497576211e-2, 0.654957074494562, 0.1414131684165572, 0.9879744049174469e-2);
  ((-0.5681291886496517), (-0.3258855289855604), 0.1414131684162387, 0.9879744049169482e-2);
  (0.1959958820407995e-2, 0.3500934424096372, 0.5593538346997974, 0.1106165676903961e-1);
  ((-0.3041697942355038), (-0.1733493470760727), 0.5593538346994973, 0.1106165676903509e-1);
  (0.3022098354145521, (-0.1767440953334651), 0.5593538347003276, 0.1106165676904102e-1);
  ((-0.7138061627291874e-1), 0.396304230394379, (-0.3961007879024273), 0.7973762810133187e-2);
  ((-0.3075192230121023), (-0.2599695422276034), (-0.3961007879023746), 0.7973762810143904e-2);
  (0.378899839285653, (-0.1363346881672204), (-0.3961007879023505), 0.7973762810145713e-2);
  ((-0.3187848524903898e-1), 0.1067074385094486e1, (-0.3950741090480416), 0.7671732380845806e-3);
  ((-0.9081742825948123), (-0.5611447706066169), (-0.3950741090482457), 0.7671732380905287e-3);
  (0.9400527678433584, (-0.5059296144870963), (-0.3950741090476022), 0.7671732380951896e-3);
  (0.9976676831438748e-1, 0.9472180066426262, (-0.3779492208572051), 0.1643453575966134e-2);
  ((-0.8701982408315725), (-0.3872084475068061), (-0.3779492208572193), 0.1643453575957693e-2);
  (0.7704314725177221, (-0.5600095591352807), (-0.3779492208571862), 0.1643453575955291e-2);
  ((-0.8207757778140335e-14), (-0.1466739111569232e-12), (-0.3464548867786856e-1), 0.4522697832344839e-1);
  ((-0.3478417597234231e-12), 0.2419854376387837e-13, 0.1201009856985286e1, 0.3708344580879497e-3);
  (0.4790952016774938e-12, (-0.1552488340937713e-12), 0.4068123865912653, 0.1141401437229523e-1);
  (0.1374787712765062e-12, (-0.2306323605219641e-12), (-0.3341407786078385), 0.2710167289616961e-1);
  (0.1420358457394610e-12, (-0.1706174368865759e-12), 0.5699475205900819, 0.1108569325544364e-1) ].
(** tetrahedron_arbq_rule.cpp:1689-1930 *)
Definition arbq_rule_11 : list arbq_row := [
  (0.9651177776899700e-1, 0.7633795193833395, (-0.1868268863122697), 0.6188005592967251e-2);
  ((-0.7093619453993043), (-0.298108108379529), (-0.1868268863123053), 0.6188005592972490e-2);
  (0.6128501676297941, (-0.4652714110037153), (-0.1868268863112705), 0.6188005592984317e-2);
  ((-0.4527836424396549e-2), 0.5352126684505152, 0.4194136456710284, 0.1421063031043561e-2);
  ((-0.4612438490926584), (-0.2715275555928822), 0.4194136456717518, 0.1421063031047919e-2);
  (0.4657716855189367, (-0.2636851128574337), 0.4194136456711013, 0.1421063030985486e-2);
  (0.2438655531438615e-1, (-0.3859766773459927), 0.5030086583798776e-1, 0.9481646089825704e-2);
  (0.3220723301923039, 0.2141077150870582, 0.5030086583729960e-1, 0.9481646089870772e-2);
  ((-0.346458885508177), 0.1718689622588539, 0.5030086583707338e-1, 0.9481646089801222e-2);
  ((-0.1267500664585161), 0.6930291114382893, (-0.1505956145194099), 0.6814905118771046e-2);
  ((-0.5368057828378728), (-0.4562833332036821), (-0.1505956145190243), 0.6814905118757536e-2);
  (0.6635558492970384, (-0.2367457782343889), (-0.1505956145192429), 0.6814905118753749e-2);
  ((-0.9547972451775022e-1), 0.3272971265990525, (-0.1725275785423899), 0.1912041674313553e-1);
  ((-0.2357077639614438), (-0.2463364302786462), (-0.1725275785429845), 0.1912041674309802e-1);
  (0.3311874884792527, (-0.8096069632058686e-1), (-0.1725275785414913), 0.1912041674324984e-1);
  ((-0.7908328086591814e-2), 0.9115742149797984, (-0.1709810615420194), 0.3076029506690844e-2);
  ((-0.7854922635641037), (-0.4626359205144959), (-0.1709810615421794), 0.3076029506690773e-2);
  (0.7934005916498822, (-0.4489382944649009), (-0.1709810615408042), 0.3076029506710983e-2);
  ((-0.1494644432070149), 0.4506243076880464, 0.7674742839401762e-1, 0.1135836724916717e-1);
  ((-0.3155198764172914), (-0.35475215862311), 0.7674742839470597e-1, 0.1135836724921729e-1);
  (0.4649843196230657, (-0.9587214906505584e-1), 0.7674742839681360e-1, 0.1135836724932070e-1);
  (0.1165276860785583, 0.3990903837832518, (-0.3720134569923326), 0.1091603321391938e-1);
  ((-0.4038862538014747), (-0.9862925550286258e-1), (-0.3720134569922893), 0.1091603321391454e-1);
  (0.2873585677227137, (-0.3004611282798994), (-0.3720134569921418), 0.1091603321395138e-1);
  ((-0.2047755067090988e-2), 0.1074747662091034, 0.9342960665019454, 0.4213691001392970e-2);
  ((-0.9205200026937792e-1), (-0.5551079101315480e-1), 0.9342960665021878, 0.4213691001384827e-2);
  (0.9409975533966558e-1, (-0.5196397519770712e-1), 0.9342960664953203, 0.4213691001487200e-2);
  (0.3468354574885807, (-0.3945086927598004), (-0.3611736289802844e-1), 0.1206837849134008e-1);
  (0.1682368211989309, 0.4976226634994518, (-0.3611736289860155e-1), 0.1206837849134312e-1);
  ((-0.5150722786890125), (-0.1031139707392109), (-0.3611736289902880e-1), 0.1206837849132945e-1);
  ((-0.114431972741818), 0.8767152876835527, (-0.3535560367475518), 0.2578861292324762e-2);
  ((-0.7020417246489494), (-0.5374586392410802), (-0.3535560367476202), 0.2578861292345221e-2);
  (0.8164736973908203, (-0.3392566484421098), (-0.3535560367476884), 0.2578861292334968e-2);
  ((-0.3048702567593), 0.3622851099556234, (-0.1926114352197085), 0.1252456101442731e-1);
  ((-0.1613129802547456), (-0.4451679421897679), (-0.1926114352198034), 0.1252456101442267e-1);
  (0.4661832370146523, 0.8288283223322354e-1, (-0.1926114352197086), 0.1252456101444618e-1);
  (0.2101640308259509, (-0.4990194872156122), (-0.2818523519641055), 0.8063913155156468e-2);
  (0.3270815374994656, 0.4315171332646398, (-0.281852351964309), 0.8063913155154395e-2);
  ((-0.5372455683250684), 0.6750235395125617e-1, (-0.2818523519648298), 0.8063913155182456e-2);
  ((-0.6404070599046534e-1), 0.7069210789517217, (-0.3888552761464975), 0.4993280626450522e-2);
  ((-0.5801912598472644), (-0.4089214177391241), (-0.3888552761464523), 0.4993280626459499e-2);
  (0.6442319658370544, (-0.2979996612119608), (-0.3888552761454053), 0.4993280626580781e-2);
  (0.5470009647103604e-2, 0.2875342242963981, 0.6654848063127317, 0.6150188384809636e-2);
  ((-0.2517469475214085), (-0.1390299448345922), 0.665484806313078, 0.6150188384813883e-2);
  (0.246276937877777, (-0.1485042794638735), 0.6654848063078891, 0.6150188384677927e-2);
  (0.1008461981380965e-1, (-0.2057520317788134), 0.1794683181875785e-1, 0.2678388417077401e-1);
  (0.1731441764929287, 0.1116095528368255, 0.1794683181975163e-1, 0.2678388417077927e-1);
  ((-0.1832287963083161), 0.9414247894240614e-1, 0.1794683181866871e-1, 0.2678388417078649e-1);
  (0.1748982078445799, 0.3372213377187678, (-0.2272794453431112), 0.1946856127752551e-1);
  ((-0.3794913490849509), (-0.1714437779017452e-1), (-0.2272794453432979), 0.1946856127748248e-1);
  (0.2045931412407059, (-0.3200769599289869), (-0.2272794453429204), 0.1946856127749281e-1);
  (0.1065391638487668e-1, 0.392485195255571, 0.8078480103364902e-1, 0.2102094189170934e-1);
  ((-0.3452291078932529), (-0.1870160353880812), 0.8078480103319574e-1, 0.2102094189169974e-1);
  (0.3345751915058239, (-0.2054691598668353), 0.8078480103608091e-1, 0.2102094189174428e-1);
  ((-0.7083686826885625e-3), (-0.2422598488114232), 0.340611194255165, 0.1685367818736497e-1);
  (0.210157367729121, 0.120516459131557, 0.3406111942551089, 0.1685367818729912e-1);
  ((-0.2094489990466886), 0.1217433896809788, 0.3406111942537021, 0.1685367818732997e-1);
  ((-0.2851273048890965), 0.5419121734527502, (-0.354913123600949), 0.5900869705091857e-2);
  ((-0.3267460563855006), (-0.5178835760728716), (-0.3549131236011042), 0.5900869705093673e-2);
  (0.6118733612746845, (-0.2402859737978143e-1), (-0.3549131236012491), 0.5900869705073673e-2);
  ((-0.2323209396920720e-2), 0.2513073392081394, 0.4213057676587053, 0.1690563324458130e-1);
  ((-0.2164769352136706), (-0.1276656279597885), 0.4213057676584742, 0.1690563324459602e-1);
  (0.2188001446096009, (-0.1236417112471668), 0.4213057676619541, 0.1690563324456019e-1);
  ((-0.2051577904029304e-1), 0.6551098499602489, (-0.243025087375771), 0.1476341187397782e-1);
  ((-0.5570838828147304), (-0.345322110807617), (-0.2430250873755122), 0.1476341187398414e-1);
  (0.5775996618543481, (-0.3097877391525884), (-0.2430250873736784), 0.1476341187397479e-1);
  ((-0.3026455196997997e-2), (-0.1666021864185573), 0.6939507005767215, 0.6992794755775152e-2);
  (0.1457949533626576, 0.8068010612598300e-1, 0.6939507005768448, 0.6992794755747075e-2);
  ((-0.1427684981666913), 0.8592208029345208e-1, 0.6939507005757009, 0.6992794755746150e-2);
  ((-0.1973538549140939), 0.2966561449375769, (-0.3547895907184612), 0.1513056742691520e-1);
  ((-0.1582348302473636), (-0.3192415243590572), (-0.3547895907186004), 0.1513056742688911e-1);
  (0.3555886851614904, 0.2258537942164062e-1, (-0.3547895907184947), 0.1513056742692685e-1);
  (0.1068857744362264, 0.4147288692159332, 0.3273634204692249, 0.7015883109811540e-2);
  ((-0.4126086236419754), (-0.1147986386430089), 0.3273634204691543, 0.7015883109809210e-2);
  (0.3057228492051779, (-0.2999302305730746), 0.3273634204697847, 0.7015883109746114e-2);
  ((-0.3003364082942412), (-0.2882335265091744), 0.3797479097987934, 0.4965174122051565e-2);
  (0.399785760325697, (-0.1159821960086673), 0.3797479098019154, 0.4965174121903291e-2);
  ((-0.9944935203203158e-1), 0.4042157225193962, 0.379747909798407, 0.4965174122041231e-2);
  (0.1221835246093986e-1, 0.1009077018844530e1, (-0.3626672020688875), 0.2712699778890213e-2);
  ((-0.8799955089249785), (-0.4939571057987255), (-0.362667202068938), 0.2712699778885687e-2);
  (0.8677771564639284, (-0.5151199130457724), (-0.3626672020686431), 0.2712699778899985e-2);
  (0.1534568838650121, 0.7489650175178515, (-0.3656623860600263), 0.5900718944404856e-2);
  ((-0.7253511736488428), (-0.2415849489462737), (-0.3656623860600038), 0.5900718944405426e-2);
  (0.5718942897840599, (-0.5073800685715635), (-0.3656623860598407), 0.5900718944424988e-2);
  (0.2235456216473980e-2, 0.6667192805807411, 0.1056953360682411, 0.8768888887154097e-2);
  ((-0.5785135622840735), (-0.3314236784178127), 0.1056953360682777, 0.8768888887160882e-2);
  (0.5762781060658508, (-0.3352956021620059), 0.1056953360707847, 0.8768888887196669e-2);
  (0.9436416592156352e-1, (-0.5158501413847826), (-0.4015122352990265), 0.3175432879836244e-2);
  (0.3995572440244, 0.3396468355868865, (-0.401512235299043), 0.3175432879833069e-2);
  ((-0.4939214099453045), 0.1762033057983631, (-0.4015122352995484), 0.3175432879794895e-2);
  (0.1578951817317316e-11, (-0.8069526265224892e-12), 0.1118223609071020e1, 0.1078986495318477e-2);
  ((-0.7234508899977211e-12), 0.4596851666550035e-12, 0.6664104583675564, 0.1747404076054822e-1);
  ((-0.1195010503052243e-12), 0.1156254386801148e-12, (-0.3809990858052303), 0.1129982873905144e-1);
  (0.1273193864088492e-12, 0.5765654131403360e-13, (-0.2253945502682283), 0.2890093028298477e-1);
  ((-0.1398313045262104e-12), (-0.1226198587930237e-12), 0.2604940999755755, 0.2624431483486055e-1) ].
(** tetrahedron_arbq_rule.cpp:1933-2226 *)
Definition arbq_rule_12 : list arbq_row := [
  (0.3958544098912666, 0.3338515555387722, (-0.3905577451659811), 0.2025764222341204e-2);
  ((-0.4870511331351648), 0.175894197396554, (-0.390557745165981), 0.2025764222341283e-2);
  (0.9119672324389515e-1, (-0.5097457529353365), (-0.3905577451659885), 0.2025764222340314e-2);
  ((-0.5926431804946591), (-0.2575328894119814), (-0.4194761577597843e-2), 0.6116300216663094e-2);
  (0.519351614788115, (-0.3844776049819921), (-0.4194761577604291e-2), 0.6116300216663310e-2);
  (0.7329156570653904e-1, 0.6420104943939733, (-0.4194761577584145e-2), 0.6116300216663541e-2);
  ((-0.4544141850245140e-1), 0.3445858452048264, 0.1874027021856, 0.1275819159212241e-1);
  ((-0.2756993864806933), (-0.2116463454095397), 0.1874027021856146, 0.1275819159212196e-1);
  (0.321140804983144, (-0.1329394997952951), 0.1874027021856214, 0.1275819159212162e-1);
  ((-0.3413860630862161), (-0.4089732623879643), (-0.3071102013390232), 0.8334684897884583e-2);
  (0.5248742662396945, (-0.9116237193661333e-1), (-0.3071102013390279), 0.8334684897884422e-2);
  ((-0.183488203153488), 0.5001356343245807, (-0.3071102013390283), 0.8334684897884272e-2);
  ((-0.1319722431139201), (-0.2437824086419522), (-0.2701961597911837e-1), 0.1507614954107500e-1);
  (0.2771078804366659, 0.7599889189904093e-2, (-0.2701961597911512e-1), 0.1507614954107359e-1);
  ((-0.1451356373227354), 0.2361825194520526, (-0.2701961597910549e-1), 0.1507614954107202e-1);
  (0.2916719156941026, 0.5725635993272842, (-0.365022387456384), 0.2734637742973762e-2);
  ((-0.6416905801467393), (-0.3368651110208424e-1), (-0.3650223874563843), 0.2734637742973644e-2);
  (0.3500186644526196, (-0.5388770882252032), (-0.365022387456383), 0.2734637742974016e-2);
  ((-0.4070439485536645e-1), 0.5794897706560004, (-0.8612392000622994e-1), 0.1154303798541227e-1);
  ((-0.4815006651936328), (-0.3249959253184209), (-0.8612392000621880e-1), 0.1154303798541274e-1);
  (0.5222050600490048, (-0.2544938453375776), (-0.8612392000621745e-1), 0.1154303798541255e-1);
  ((-0.9820856549819251e-1), 0.5504594216795844, 0.1070791221730147, 0.7163952410599667e-2);
  ((-0.4276075601779065), (-0.3602808234304559), 0.1070791221730203, 0.7163952410599083e-2);
  (0.5258161256761047, (-0.1901785982491242), 0.1070791221730225, 0.7163952410598778e-2);
  (0.2184089033681613, 0.4115986775195391, 0.3230374822491166e-1, 0.7580503447649259e-2);
  ((-0.465659362580079), (-0.1665168003024589e-1), 0.3230374822490626e-1, 0.7580503447650207e-2);
  (0.2472504592119225, (-0.3949469974892933), 0.3230374822491062e-1, 0.7580503447650126e-2);
  ((-0.6606777491144762e-2), (-0.1430620777928657), 0.3289827199375365, 0.1894249152240793e-1);
  (0.1271987824323769, 0.6580940175195596e-1, 0.3289827199375268, 0.1894249152240805e-1);
  ((-0.1205920049412379), 0.7725267604090996e-1, 0.3289827199375392, 0.1894249152240727e-1);
  ((-0.1862346674942773), 0.2342697395017627, (-0.2002324469987915), 0.1641784697591419e-1);
  ((-0.1097662119993451), (-0.2784188228662802), (-0.2002324469988037), 0.1641784697591236e-1);
  (0.2960008794936306, 0.4414908336450658e-1, (-0.200232446998801), 0.1641784697591317e-1);
  ((-0.5890402754221185), (-0.401755436436729), (-0.2771825970811163), 0.8436640400263927e-2);
  (0.6424505517737594, (-0.309246124149365), (-0.2771825970811178), 0.8436640400264633e-2);
  ((-0.5341027635165645e-1), 0.711001560586086, (-0.2771825970811177), 0.8436640400264418e-2);
  ((-0.1196400210307819e-1), 0.9085253735987711, (-0.3794145952130761), 0.3036004079076158e-2);
  ((-0.7808240524677493), (-0.4646238165515825), (-0.3794145952130777), 0.3036004079076059e-2);
  (0.7927880545708264, (-0.4439015570471948), (-0.3794145952130777), 0.3036004079076094e-2);
  (0.6235239461686299e-1, 0.4730296395382988, 0.2887592197883361, 0.7492415688372185e-2);
  ((-0.4408318818916021), (-0.1825160620441602), 0.2887592197883261, 0.7492415688372261e-2);
  (0.3784794872747496, (-0.2905135774941487), 0.2887592197883259, 0.7492415688372197e-2);
  (0.2235903863093564, (-0.6857456848032077e-1), 0.7307953050563157, 0.3062456464426824e-2);
  ((-0.5240787479715297e-1), 0.2279222388260412, 0.7307953050563196, 0.3062456464427586e-2);
  ((-0.1711825115122079), (-0.1593476703457152), 0.7307953050563138, 0.3062456464427105e-2);
  (0.1666477050331823, 0.2190140235085516, 0.412491824632861, 0.8856133214568079e-2);
  ((-0.2729955606600447), 0.3481413428683416e-1, 0.4124918246328517, 0.8856133214567973e-2);
  (0.1063478556268736, (-0.2538281577953898), 0.4124918246328527, 0.8856133214568157e-2);
  ((-0.7415049139037595e-1), (-0.4251600332346974e-1), 0.9839020121236216, 0.3071402699546415e-2);
  (0.7389518464069887e-1, (-0.4295820758543226e-1), 0.9839020121236166, 0.3071402699546453e-2);
  (0.2553067496801190e-3, 0.8547421090889233e-1, 0.9839020121236378, 0.3071402699546178e-2);
  (0.1955908717228039, (-0.2447322131044543), 0.6829751492607604e-1, 0.1823835135198804e-1);
  (0.1141488778114551, 0.2917527702125314, 0.6829751492606395e-1, 0.1823835135198757e-1);
  ((-0.3097397495342445), (-0.4702055710805701e-1), 0.6829751492607447e-1, 0.1823835135198796e-1);
  ((-0.1802680258591541e-1), 0.2600283704245143, 0.5090267712108498, 0.1121658861163283e-1);
  ((-0.2161777731993448), (-0.1456258542006649), 0.5090267712108671, 0.1121658861163258e-1);
  (0.2342045757852541, (-0.114402516223841), 0.5090267712108663, 0.1121658861163293e-1);
  ((-0.1532613811702923), 0.2964453769751457, 0.3851617855258526, 0.5177567930581361e-2);
  ((-0.1800985367097719), (-0.2809509380001344), 0.3851617855258565, 0.5177567930581481e-2);
  (0.3333599178800782, (-0.1549443897500673e-1), 0.3851617855258507, 0.5177567930580846e-2);
  (0.5776336665233524e-2, 0.777575919372589, 0.2348420776072121e-1, 0.3242723020974106e-2);
  ((-0.6762886678803212), (-0.3837855053933897), 0.2348420776071207e-1, 0.3242723020974469e-2);
  (0.6705123312150877, (-0.3937904139792007), 0.2348420776071097e-1, 0.3242723020974430e-2);
  ((-0.8304590790913337e-1), (-0.3624391892660122), 0.7747281662419676e-1, 0.1136422978208590e-1);
  (0.3554044991859694, 0.1092997287033503, 0.7747281662420324e-1, 0.1136422978208548e-1);
  ((-0.272358591276836), 0.2531394605626634, 0.7747281662419568e-1, 0.1136422978208555e-1);
  (0.5423845315967933, (-0.2145827819997083e-1), (-0.1630338566084656), 0.8174247103577847e-2);
  ((-0.2526088517557438), 0.4804479220825398, (-0.1630338566084718), 0.8174247103578128e-2);
  ((-0.2897756798410528), (-0.4589896438825594), (-0.1630338566084695), 0.8174247103578329e-2);
  (0.5573431967310101, 0.9342132288033096e-1, (-0.3584562395667113), 0.4083194002127334e-2);
  ((-0.3595768372350124), 0.4359627055553254, (-0.3584562395667106), 0.4083194002127503e-2);
  ((-0.1977663594959926), (-0.5293840284356405), (-0.3584562395667084), 0.4083194002128160e-2);
  (0.4731366238769863, (-0.2503585120211285), 0.3698626219613211, 0.3128101586450114e-2);
  ((-0.1975148047452081e-1), 0.5349275917488283, 0.3698626219613297, 0.3128101586450456e-2);
  ((-0.4533851434024622), (-0.2845690797277077), 0.3698626219613188, 0.3128101586450350e-2);
  (0.3153219324427421, (-0.1532525106706588), (-0.366729822887569), 0.1081664090579396e-1);
  ((-0.2494039878683618e-1), 0.3497030592011267, (-0.3667298228875713), 0.1081664090579364e-1);
  ((-0.2903815336558955), (-0.1964505485304861), (-0.3667298228875721), 0.1081664090579339e-1);
  ((-0.1831653764008917e-1), 0.1086435405003431e1, (-0.3790081337166384), 0.4910680133298682e-3);
  ((-0.9317223914837645), (-0.5590802894074118), (-0.3790081337166408), 0.4910680133297917e-3);
  (0.950038929123857, (-0.5273551155960269), (-0.3790081337166418), 0.4910680133297780e-3);
  ((-0.6699974553713883), (-0.2277988977546228), (-0.2197227060814419), 0.8074513061447679e-2);
  (0.5322783600952914, (-0.4663353679452422), (-0.2197227060814434), 0.8074513061447566e-2);
  (0.137719095276097, 0.6941342656998574, (-0.219722706081437), 0.8074513061448123e-2);
  (0.2782783282780965, 0.2108172081069621, (-0.3654645869052863), 0.1112708329974781e-1);
  ((-0.321712221914591), 0.1355874975580061, (-0.3654645869052863), 0.1112708329974803e-1);
  (0.4343389363650290e-1, (-0.3464047056649888), (-0.3654645869052867), 0.1112708329974812e-1);
  (0.9746770878915403e-1, 0.3748559371110348, (-0.2014726326233556), 0.2131526487678964e-1);
  ((-0.3733686186921615), (-0.1030184566954502), (-0.2014726326233535), 0.2131526487679003e-1);
  (0.2759009099030095, (-0.2718374804155939), (-0.2014726326233503), 0.2131526487678986e-1);
  (0.1089081465931238e-1, 0.9400326158922729, (-0.246440528575148), 0.3571026646377801e-2);
  ((-0.8195375330783097), (-0.4605845857832677), (-0.2464405285751552), 0.3571026646377656e-2);
  (0.8086467184189974, (-0.4794480301090108), (-0.2464405285751559), 0.3571026646377794e-2);
  ((-0.1251938886030335), 0.3267824275100505e-1, 0.7375395719855852, 0.7768447076866043e-2);
  (0.3429675592810749e-1, (-0.1247602093042907), 0.7375395719855836, 0.7768447076865915e-2);
  (0.9089713267491691e-1, 0.9208196655328471e-1, 0.7375395719855902, 0.7768447076866019e-2);
  (0.4868852723886817, (-0.4194700484257879), (-0.368924026122376), 0.7618830679555172e-2);
  (0.1198290818690802, 0.6313900388299887, (-0.3689240261223751), 0.7618830679555604e-2);
  ((-0.6067143542577578), (-0.2119199904042083), (-0.368924026122375), 0.7618830679555573e-2);
  (0.3382540465835279, 0.3362799093518891, (-0.2202508600260902), 0.1180399216908969e-1);
  ((-0.46035396757283), 0.1247966425982771, (-0.2202508600260935), 0.1180399216908947e-1);
  (0.1220999209893009, (-0.4610765519501666), (-0.2202508600260907), 0.1180399216908933e-1);
  ((-0.9480210749913888e-1), 0.7996643270816305, (-0.1594720366091775), 0.2753708273597594e-2);
  ((-0.6451285680033118), (-0.4819331969673737), (-0.1594720366091723), 0.2753708273597404e-2);
  (0.7399306755024498, (-0.3177311301142533), (-0.159472036609174), 0.2753708273597407e-2);
  (0.1140113067761596, 0.9217567340036824, (-0.3758886073617869), 0.1252040626033346e-2);
  ((-0.8552704011446526), (-0.3621416790150311), (-0.3758886073617894), 0.1252040626033167e-2);
  (0.741259094368485, (-0.5596150549886635), (-0.3758886073617892), 0.1252040626033129e-2);
  ((-0.1658421801556803), 0.8169629451576943, (-0.3542700621002714), 0.2035505637330654e-2);
  ((-0.6245895743792733), (-0.5521050136126617), (-0.35427006210027), 0.2035505637330660e-2);
  (0.7904317545349575, (-0.2648579315450346), (-0.3542700621002702), 0.2035505637330673e-2);
  (0.2557413056493574, (-0.1854220399449956), 0.6895589091912253, 0.2152733016776995e-2);
  (0.3270954418922731e-1, 0.3141894874618389, 0.6895589091912366, 0.2152733016776493e-2);
  ((-0.2884508498385872), (-0.1287674475168422), 0.6895589091912278, 0.2152733016776350e-2);
  ((-0.161315756957164), 0.6224002317220075, (-0.4073916692470354), 0.2538969965943544e-2);
  ((-0.4583565335140027), (-0.4509036594166286), (-0.407391669247037), 0.2538969965943405e-2);
  (0.619672290471167, (-0.1714965723053837), (-0.40739166924704), 0.2538969965943241e-2);
  (0.2156998987651826e-14, (-0.1747363709921250e-14), 0.6482117053575507, 0.1078372873958245e-1);
  (0.2157685773910294e-14, (-0.7841339838758449e-14), 0.1198603539538932e1, 0.1943908493037603e-3);
  (0.9329761593328095e-14, (-0.1038742413216324e-13), (-0.4041509145471567), 0.4799528389705479e-2);
  ((-0.1937826095544789e-14), (-0.6434088705165255e-14), (-0.2710584986072719), 0.2477673544485754e-1);
  (0.5112100598082816e-14, 0.8511611593137641e-14, 0.8757555073873696e-2, 0.2864883777302190e-1) ].
(** tetrahedron_arbq_rule.cpp:2229-2570 *)
Definition arbq_rule_13 : list arbq_row := [
  ((-0.4777385017466611e-1), 0.9015530084355994, (-0.2327715323996341), 0.2068909148962774e-2);
  ((-0.7568808830760128), (-0.4921498721057091), (-0.2327715323996078), 0.2068909148960302e-2);
  (0.8046547332507396, (-0.4094031363297998), (-0.2327715323995431), 0.2068909148962221e-2);
  (0.3005907944967990e-1, 0.3836064709764307, 0.3496762696550786, 0.6862179883351744e-2);
  ((-0.3472424886466524), (-0.1657713090704851), 0.3496762696549099, 0.6862179883357749e-2);
  (0.3171834091971876, (-0.2178351619061508), 0.3496762696549561, 0.6862179883341077e-2);
  ((-0.3529824413110864e-1), 0.5064492350445715, 0.271798856540911, 0.4745055930506758e-2);
  ((-0.4209487812102883), (-0.2837937936488191), 0.2717988565409942, 0.4745055930499521e-2);
  (0.45624702534145, (-0.2226554413958301), 0.2717988565407555, 0.4745055930498638e-2);
  ((-0.7153537080888878), (-0.2786050402678961), (-0.3874128688211647), 0.2639271833496386e-2);
  (0.5989558965388279, (-0.4802119637624816), (-0.3874128688212131), 0.2639271833492975e-2);
  (0.1163978115501301, 0.7588170040302994, (-0.3874128688212028), 0.2639271833493415e-2);
  (0.3710519456025519e-2, (-0.5393476461992264), (-0.3783145937148669), 0.2420284628312029e-2);
  (0.4652335033519287, 0.2728872272096964, (-0.3783145937148664), 0.2420284628310808e-2);
  ((-0.4689440228078527), 0.2664604189895141, (-0.3783145937148837), 0.2420284628311964e-2);
  ((-0.3599160575353618e-1), (-0.2032233682745297), (-0.3908054363428844), 0.5428029730193044e-2);
  (0.1939924024452817, 0.7044203923151297e-1, (-0.3908054363428517), 0.5428029730198515e-2);
  ((-0.1580007966914678), 0.1327813290428652, (-0.3908054363428521), 0.5428029730197811e-2);
  ((-0.2161537359848647e-1), (-0.323838377680154), 0.2214621132658698, 0.7363269664287002e-2);
  (0.291259948590594, 0.1431997261914898, 0.2214621132658886, 0.7363269664287796e-2);
  ((-0.2696445749921), 0.1806386514886541, 0.2214621132658825, 0.7363269664288242e-2);
  ((-0.4913573074965884), 0.1938723202896774e-1, (-0.5332156026748039e-1), 0.4622589345403796e-2);
  (0.2288888183023164, (-0.4352215266416702), (-0.5332156026744841e-1), 0.4622589345400746e-2);
  (0.2624684891944182, 0.4158342946127344, (-0.5332156026745260e-1), 0.4622589345402929e-2);
  ((-0.1426281098822192), 0.4424381517603146, (-0.1366126720097484), 0.1113014179512893e-1);
  ((-0.3118486240867259), (-0.3447386423319839), (-0.1366126720097481), 0.1113014179512515e-1);
  (0.454476733969026, (-0.9769950942847148e-1), (-0.1366126720097814), 0.1113014179513268e-1);
  (0.7618754763810419, (-0.275635240194294), (-0.3405718815923187), 0.3019898782414975e-2);
  ((-0.1422306180040716), 0.7976211371634238, (-0.3405718815923307), 0.3019898782415646e-2);
  ((-0.6196448583768703), (-0.521985896969213), (-0.3405718815923774), 0.3019898782415196e-2);
  (0.5776897880027803e-1, (-0.1678396578899558), 0.2482158558753812, 0.1497918593186746e-1);
  (0.1164689180950719, 0.1339492321368408, 0.2482158558753821, 0.1497918593186317e-1);
  ((-0.1742378968955057), 0.3389042575316226e-1, 0.2482158558753401, 0.1497918593186622e-1);
  ((-0.1414719142296262), 0.4545746399118207, 0.1493078550521198, 0.6570279132551560e-2);
  ((-0.3229372289650024), (-0.3498055916007531), 0.1493078550521607, 0.6570279132554112e-2);
  (0.464409143194571, (-0.1047690483110467), 0.1493078550521824, 0.6570279132553927e-2);
  ((-0.1398258170326137), 0.6694930174765074, (-0.1246861001425667), 0.4504033084972921e-2);
  ((-0.5098850522745304), (-0.4558392183934259), (-0.1246861001425311), 0.4504033084968776e-2);
  (0.6497108693071825, (-0.2136537990830517), (-0.1246861001424509), 0.4504033084972839e-2);
  (0.3610318921371553, (-0.3302200348036231), (-0.8804090671666169e-1), 0.1239429415995445e-1);
  (0.1054629929099188, 0.4777728075688429, (-0.8804090671661184e-1), 0.1239429415996196e-1);
  ((-0.4664948850470391), (-0.1475527727653846), (-0.8804090671646460e-1), 0.1239429415995679e-1);
  (0.2459013465212476e-1, 0.8146638484662959, (-0.2903904416529835), 0.5367281142254301e-2);
  ((-0.7178146556427887), (-0.3860362429420576), (-0.2903904416529482), 0.5367281142251953e-2);
  (0.6932245209907225, (-0.4286276055244945), (-0.2903904416530703), 0.5367281142250357e-2);
  ((-0.1065595141175732e-1), 0.1070453773333782e1, (-0.3588716811515187), 0.6316169904420855e-3);
  ((-0.9217121855780308), (-0.544455211290932), (-0.3588716811515073), 0.6316169904431759e-3);
  (0.9323681369897492, (-0.5259985620427312), (-0.3588716811515079), 0.6316169904440820e-3);
  ((-0.411528552887236), (-0.7053881312997473e-1), 0.1748649644824907, 0.8876101030265546e-2);
  (0.2668526805669106, (-0.3211247746179037), 0.1748649644825259, 0.8876101030282007e-2);
  (0.1446758723202021, 0.391663587747994, 0.1748649644824762, 0.8876101030274161e-2);
  (0.1571190412397715e-2, 0.7902375403647920e-1, 0.1005626022480115e1, 0.2162421606464688e-2);
  ((-0.6922217370423006e-1), (-0.3815118620693258e-1), 0.1005626022480066e1, 0.2162421606465037e-2);
  (0.6765098329171684e-1, (-0.4087256782951131e-1), 0.1005626022480308e1, 0.2162421606462924e-2);
  ((-0.2991189861629327), 0.3165284439137526, (-0.6085363845277859e-1), 0.8054280667477870e-2);
  ((-0.1245621803681009), (-0.4173088627282204), (-0.6085363845275459e-1), 0.8054280667477506e-2);
  (0.4236811665311025, 0.1007804188144937, (-0.6085363845275343e-1), 0.8054280667478849e-2);
  (0.3871696430393148, (-0.3968282271412536), (-0.2907416212662024), 0.9049885628396499e-2);
  (0.1500785041234294, 0.5337128600166933, (-0.2907416212662147), 0.9049885628398672e-2);
  ((-0.5372481471625822), (-0.1368846328756112), (-0.2907416212661059), 0.9049885628405025e-2);
  ((-0.8064886300342536e-1), 0.6059686632316962, (-0.2928675049685535), 0.9196546074381425e-2);
  ((-0.4844598247542774), (-0.3728282957631877), (-0.2928675049684912), 0.9196546074380063e-2);
  (0.5651086877577737, (-0.233140367468673), (-0.2928675049686165), 0.9196546074381355e-2);
  (0.6705603853993255, (-0.8534490338988292e-1), (-0.3986190384060752), 0.1389679560298547e-2);
  ((-0.2613693382805031), 0.6233947802222222, (-0.3986190384060841), 0.1389679560298251e-2);
  ((-0.409191047118684), (-0.5380498768323672), (-0.3986190384061074), 0.1389679560296835e-2);
  ((-0.2994914861160214), 0.4817745012020841, (-0.2763005028815692), 0.5469361348986402e-2);
  ((-0.267483213878585), (-0.5002544857946896), (-0.2763005028815834), 0.5469361348984248e-2);
  (0.5669746999946459, 0.1847998459249884e-1, (-0.276300502881531), 0.5469361348984599e-2);
  (0.4510147973428894e-1, (-0.2768482795388788), (-0.3171132373617958e-1), 0.1725450508839409e-1);
  (0.2172069032075606, 0.1774831669675317, (-0.3171132373613690e-1), 0.1725450508839278e-1);
  ((-0.2623083829418457), 0.9936511257127259e-1, (-0.3171132373618723e-1), 0.1725450508839148e-1);
  ((-0.2495785492724049), 0.3848620644010382, (-0.3670072924650872), 0.6733913747887457e-2);
  ((-0.2085110500880744), (-0.4085723961101285), (-0.3670072924650821), 0.6733913747885728e-2);
  (0.4580895993605156, 0.2371033170906487e-1, (-0.3670072924650642), 0.6733913747886398e-2);
  (0.2707504828489703, 0.4004326341980497, (-0.3918966809387769), 0.4022564578398640e-2);
  ((-0.4821600751443009), 0.3426047913492075e-1, (-0.391896680938754), 0.4022564578402713e-2);
  (0.2114095922954477, (-0.4346931133331124), (-0.3918966809387686), 0.4022564578399363e-2);
  ((-0.4554280384514680e-1), 0.9496652130401684, (-0.3945112928982144), 0.1301944787144861e-2);
  ((-0.7996627976605564), (-0.5142738316095435), (-0.3945112928982283), 0.1301944787144253e-2);
  (0.8452056015056444, (-0.435391381430545), (-0.3945112928982709), 0.1301944787143136e-2);
  (0.2029674430134095e-1, 0.9117160117907287, (-0.1689813827450514), 0.2027792916616635e-2);
  ((-0.799717599398493), (-0.4382805097163334), (-0.1689813827450869), 0.2027792916617886e-2);
  (0.7794208550971885, (-0.4734355020744341), (-0.1689813827450585), 0.2027792916616735e-2);
  (0.1441756236446537, 0.7152866610716716, (-0.1988456360856388), 0.4379548102164245e-2);
  ((-0.6915442312985614), (-0.2327835778531099), (-0.1988456360856537), 0.4379548102164029e-2);
  (0.5473686076540003, (-0.482503083218601), (-0.198845636085661), 0.4379548102160293e-2);
  (0.3528170518753222e-1, 0.3620384831590592, (-0.3581788966687771), 0.9788773323829804e-2);
  ((-0.3311753761570134), (-0.1504643885983839), (-0.3581788966687613), 0.9788773323830982e-2);
  (0.2958936709696454, (-0.2115740945607743), (-0.3581788966687278), 0.9788773323832441e-2);
  ((-0.7827835701762442e-2), (-0.3141876222502283), (-0.2652570624981906), 0.1491498412616913e-1);
  (0.2760083802741976, 0.1503147065506677, (-0.2652570624981415), 0.1491498412617151e-1);
  ((-0.2681805445724308), 0.1638729156994478, (-0.2652570624981432), 0.1491498412617137e-1);
  (0.6806655606966093e-1, 0.6504322183920584, 0.9127655651197962e-1, 0.3816494659634458e-2);
  ((-0.5973241026022454), (-0.2662687424915907), 0.9127655651192465e-1, 0.3816494659634902e-2);
  (0.5292575465325308, (-0.3841634759004985), 0.9127655651200027e-1, 0.3816494659631925e-2);
  ((-0.9685067665231929e-1), (-0.204999708658188), 0.4712027028361149, 0.1053753256419563e-1);
  (0.2259602937925122, 0.1862470797446676e-1, 0.4712027028361768, 0.1053753256419800e-1);
  ((-0.1291096171402099), 0.1863750006837488, 0.4712027028361248, 0.1053753256419685e-1);
  ((-0.1001708030503953e-1), 0.6559259202331654, (-0.4789101434801453e-1), 0.9378412737876001e-2);
  ((-0.5630399697700922), (-0.3366380061325622), (-0.4789101434802212e-1), 0.9378412737873921e-2);
  (0.573057050075142, (-0.3192879141007369), (-0.4789101434808656e-1), 0.9378412737876034e-2);
  (0.3465920273834422e-1, 0.1852408823986869, 0.5562071598537035, 0.1034943926448387e-1);
  ((-0.1777529113458167), (-0.6260469115301880e-1), 0.5562071598536467, 0.1034943926449078e-1);
  (0.1430937086076311, (-0.1226361912458057), 0.5562071598533351, 0.1034943926449734e-1);
  (0.7285263734559304e-1, 0.9693279211217602, (-0.3666902411131864), 0.1253515438165336e-2);
  ((-0.8758889229618175), (-0.4215717258868716), (-0.3666902411132085), 0.1253515438163976e-2);
  (0.8030362856162614, (-0.5477561952349157), (-0.366690241113219), 0.1253515438162651e-2);
  (0.1343389663918027, (-0.4753793031363919), (-0.2500081968302335), 0.7631115735488028e-2);
  (0.344521069753589, 0.3540306091815932, (-0.2500081968302558), 0.7631115735488942e-2);
  ((-0.4788600361453874), 0.1213486939547357, (-0.2500081968302762), 0.7631115735487678e-2);
  ((-0.1348321313217423e-1), (-0.125546521197851), 0.7953910781041313, 0.4662247664665583e-2);
  (0.1154680832801965, 0.5109645550180968e-1, 0.7953910781041719, 0.4662247664663175e-2);
  ((-0.1019848701479677), 0.7445006569601835e-1, 0.7953910781041406, 0.4662247664669866e-2);
  ((-0.5176848990301737e-1), 0.3042393982437668, 0.1246295654192337, 0.1924508745358327e-1);
  ((-0.2375948027597131), (-0.1969525264934776), 0.124629565419238, 0.1924508745357723e-1);
  (0.289363292662701, (-0.1072868717503699), 0.1246295654192949, 0.1924508745358518e-1);
  (0.1729207472857360e-1, 0.4968519844113532, 0.4430780439124138, 0.2150599791391388e-2);
  ((-0.4389324777852445), (-0.2334506162065882), 0.4430780439124452, 0.2150599791389261e-2);
  (0.4216404030566085, (-0.2634013682047193), 0.4430780439125641, 0.2150599791389503e-2);
  ((-0.3914791775164566e-2), 0.268959581722058, (-0.1789190687389412), 0.1815794181007045e-1);
  ((-0.2309684344749786), (-0.1378700999889159), (-0.1789190687388659), 0.1815794181007355e-1);
  (0.2348832262501366, (-0.1310894817332517), (-0.1789190687388622), 0.1815794181007060e-1);
  ((-0.6881144138718593), (-0.9541153848828572e-1), (-0.36217532773589), 0.2074509937828351e-2);
  (0.4266860230809687, (-0.5482187938791565), (-0.3621753277358689), 0.2074509937826631e-2);
  (0.2614283907909357, 0.6436303323674273, (-0.3621753277358712), 0.2074509937827053e-2);
  (0.4960973006288234e-2, 0.2439463089891027, 0.7590201625172059, 0.3856301126724407e-2);
  ((-0.2137441872471665), (-0.1176768258436301), 0.7590201625171641, 0.3856301126725213e-2);
  (0.2087832142407756, (-0.126269483145421), 0.7590201625173268, 0.3856301126727490e-2);
  ((-0.7325006065249269e-1), 0.3493822205657847, 0.5385097619725802, 0.2342776832115179e-2);
  ((-0.2659488483143491), (-0.2381275236366834), 0.5385097619725214, 0.2342776832117610e-2);
  (0.3391989089668666, (-0.1112546969291192), 0.5385097619724014, 0.2342776832119853e-2);
  ((-0.4678501489682662e-1), 0.6517382679995124, (-0.4034889863680245), 0.2485903899501151e-2);
  ((-0.5410293892575722), (-0.3663861454168269), (-0.4034889863679839), 0.2485903899504086e-2);
  (0.5878144041543488, (-0.2853521225825763), (-0.4034889863680722), 0.2485903899497665e-2);
  ((-0.2500405721723705e-1), 0.74347930613841, 0.9129480050841532e-1, 0.1958269886432824e-2);
  ((-0.6313699376952513), (-0.3933938018169897), 0.9129480050844316e-1, 0.1958269886433108e-2);
  (0.6563739949124212, (-0.3500855043213671), 0.9129480050850451e-1, 0.1958269886434393e-2);
  (0.1364199568193839, 0.2672085045651081, 0.5076476008019328, 0.3112037442333638e-2);
  ((-0.2996193314702689), (-0.1546110409379758e-1), 0.5076476008020036, 0.3112037442336383e-2);
  (0.1631993746509763, (-0.2517474004713509), 0.5076476008019484, 0.3112037442329971e-2);
  (0.1198743702984181e-12, (-0.6195967642546056e-13), 0.7587686360919684, 0.8380938111968996e-2);
  ((-0.7662979863046558e-13), 0.3002370388193685e-13, 0.1174064403165666e1, 0.2408616607470909e-3);
  ((-0.4829662024390088e-14), (-0.5457794979132388e-13), (-0.2917588131252908), 0.1651223797192308e-1);
  ((-0.2111050829994401e-13), 0.1164494042115649e-12, 0.4072850512806022, 0.1363274166717042e-1);
  ((-0.1270671025297558e-13), 0.3123283355285955e-13, (-0.2737975651676979e-2), 0.2507433395640973e-1) ].
(** tetrahedron_arbq_rule.cpp:2573-2978 *)
Definition arbq_rule_14 : list arbq_row := [
  ((-0.5752422835841802), (-0.1661332605832194), (-0.3002408419822953), 0.4194830168311239e-2);
  (0.4314967658691802, (-0.4151078006247312), (-0.3002408419833086), 0.4194830168326290e-2);
  (0.143745517713982, 0.5812410612053462, (-0.3002408419833821), 0.4194830168354955e-2);
  ((-0.3303076984155172), (-0.3712097301616572), (-0.2367243537500485), 0.6505251369757091e-2);
  (0.4866309056595519, (-0.1004499928153783), (-0.2367243537456669), 0.6505251369749837e-2);
  ((-0.156323207242951), 0.4716597229753685, (-0.2367243537470976), 0.6505251369724089e-2);
  ((-0.5770168798465761e-2), 0.8135639371543177, (-0.1124874139319764e-1), 0.1511857423469778e-2);
  ((-0.7016819527781105), (-0.4117790813394923), (-0.1124874139141120e-1), 0.1511857423531536e-2);
  (0.7074521215770434, (-0.4017848558132318), (-0.1124874139183386e-1), 0.1511857423435278e-2);
  ((-0.3032416710412216), 0.4452636911188574, (-0.2091200491939335), 0.3576693638591392e-2);
  ((-0.2339888323701999), (-0.4852468361674822), (-0.2091200491951212), 0.3576693638610991e-2);
  (0.5372305034104569, 0.3998314505168596e-1, (-0.2091200491943568), 0.3576693638618915e-2);
  (0.2995840525991514, 0.3264840198869604, (-0.3871070169557922), 0.3373656058688358e-2);
  ((-0.4325354814520043), 0.9620539017564665e-1, (-0.387107016955722), 0.3373656058691433e-2);
  (0.1329514288534004, (-0.4226894100630985), (-0.3871070169561885), 0.3373656058671795e-2);
  (0.2313978508942549, (-0.8671007929617915e-1), 0.1576758205577684, 0.1076784154760114e-1);
  ((-0.4060579401191659e-1), 0.2437514569045547, 0.1576758205557184, 0.1076784154761919e-1);
  ((-0.1907920568806182), (-0.1570413776087273), 0.1576758205553296, 0.1076784154751974e-1);
  (0.1198459969693036, 0.5641616743542007, (-0.3804994466636671), 0.3758938857122322e-2);
  ((-0.5485013403177168), (-0.1782911592597502), (-0.3804994466631279), 0.3758938857165091e-2);
  (0.4286553433493205, (-0.3858705150939825), (-0.3804994466634047), 0.3758938857143189e-2);
  ((-0.4223067018453286), 0.6946377256844247e-2, (-0.2566785126781401), 0.8302444588410703e-2);
  (0.2051376117542425, (-0.3692015206135402), (-0.2566785126792934), 0.8302444588357655e-2);
  (0.2171690900904567, 0.3622551433574067, (-0.2566785126782982), 0.8302444588429193e-2);
  ((-0.199555205948733), 0.5004562312099742, (-0.7550445623527601e-2), 0.2942777031213149e-2);
  ((-0.3336302067365579), (-0.4230479934143149), (-0.7550445625559176e-2), 0.2942777031243674e-2);
  (0.5331854126840413, (-0.7740823779440852e-1), (-0.7550445625114355e-2), 0.2942777031245480e-2);
  ((-0.3362367775957516e-2), 0.2424079875448238, 0.3966685271521035, 0.8843589566618218e-2);
  ((-0.2082502914064486), (-0.1241158896833233), 0.3966685271469443, 0.8843589566569863e-2);
  (0.2116126591830406, (-0.1182920978621629), 0.3966685271536675, 0.8843589566624911e-2);
  (0.3901789196843061, (-0.2247937322813834), 0.5436295368746583, 0.9759028519288406e-3);
  ((-0.4123770748876975e-3), 0.4503017226062891, 0.5436295368772041, 0.9759028519397565e-3);
  ((-0.3897665426036371), (-0.2255079903239726), 0.5436295368824269, 0.9759028519575427e-3);
  (0.5440475521812093e-2, 0.65180239026692, 0.2108533972691848, 0.2004802238525724e-2);
  ((-0.5671976659757272), (-0.3211896051207328), 0.2108533972755834, 0.2004802238518510e-2);
  (0.5617571904593656, (-0.3306127851443094), 0.2108533972664533, 0.2004802238530063e-2);
  (0.5109903009675820e-1, 0.988055775141073, (-0.3846227632566736), 0.9695765259457370e-3);
  ((-0.8812309166767075), (-0.4497748293987996), (-0.3846227632563715), 0.9695765259577475e-3);
  (0.8301318865798517, (-0.5382809457428603), (-0.3846227632570768), 0.9695765259399248e-3);
  ((-0.3334033396451877), 0.248487410268569, 0.4320199156927147e-1, 0.1954897938090337e-2);
  ((-0.4849473999181729e-1), (-0.4129794669742624), 0.4320199156864359e-1, 0.1954897938078232e-2);
  (0.3818980796337723, 0.1644920567082871, 0.4320199157222126e-1, 0.1954897938036924e-2);
  (0.2967209217147687, (-0.1786101603431211), (-0.3942552261036596), 0.3691846518220940e-2);
  (0.6320475373066934e-2, 0.346272936211606, (-0.3942552261036111), 0.3691846518218663e-2);
  ((-0.303041397090647), (-0.1676627758691386), (-0.3942552261035123), 0.3691846518232707e-2);
  (0.3947081540530285, 0.1159937060740129, (-0.290082372165631), 0.7970801887754822e-2);
  ((-0.2978075731654519), 0.2838304354535469, (-0.2900823721654074), 0.7970801887704541e-2);
  ((-0.9690058088341083e-1), (-0.3998241415280471), (-0.2900823721650085), 0.7970801887626933e-2);
  (0.4602277425410929, 0.3320417294495800e-1, (-0.4001954700908103), 0.1979189926163023e-2);
  ((-0.2588695285519879), 0.3819668300942372, (-0.4001954700902223), 0.1979189926220139e-2);
  ((-0.2013582139898412), (-0.415171003039598), (-0.4001954700893645), 0.1979189926268928e-2);
  (0.4320204013442107, (-0.4986884177668357), (-0.2514599966999538), 0.3698742482337427e-2);
  (0.2158666376867163, 0.6234848514007479, (-0.2514599967001752), 0.3698742482364018e-2);
  ((-0.6478870390304328), (-0.1247964336323278), (-0.2514599967005651), 0.3698742482353030e-2);
  (0.3243502588043465e-2, 0.9395983095546842, (-0.2052993465249218), 0.1687317723859350e-2);
  ((-0.8153377567221353), (-0.4669901991392865), (-0.2052993465263826), 0.1687317723863163e-2);
  (0.8120942541315551, (-0.4726081104148907), (-0.2052993465223245), 0.1687317723875827e-2);
  ((-0.2929639748058975), 0.1236801757609007, 0.2946594740406009, 0.3835254087109209e-2);
  (0.3937181324850053e-1, (-0.3155543324553964), 0.2946594740416467, 0.3835254087144783e-2);
  (0.2535921615554882, 0.1918741566946638, 0.2946594740425612, 0.3835254087114301e-2);
  ((-0.29117123642079), (-0.3455881484181401), (-0.5795226862357377e-1), 0.1016260451104831e-1);
  (0.4448737339859005, (-0.7936761338079117e-1), (-0.5795226862121653e-1), 0.1016260451098046e-1);
  ((-0.1537024975672874), 0.4249557617992578, (-0.5795226862189089e-1), 0.1016260451102241e-1);
  (0.3770577628402459, 0.3096393919455638, (-0.2212157144490026), 0.5267012161743862e-2);
  ((-0.4566844608555435), 0.171721905344289, (-0.2212157144492802), 0.5267012161757533e-2);
  (0.7962669801609278e-1, (-0.4813612972863747), (-0.2212157144486162), 0.5267012161774349e-2);
  ((-0.7343568438702067e-3), 0.6984686512807867e-1, 0.1031915041617615e1, 0.1528430187195588e-2);
  ((-0.6012198115212343e-1), (-0.3555940424550629e-1), 0.1031915041621368e1, 0.1528430187157122e-2);
  (0.6085633799849959e-1, (-0.3428746088226146e-1), 0.1031915041615854e1, 0.1528430187208298e-2);
  ((-0.7860612444751536), (-0.3628109884665136), (-0.284366470168081), 0.2982437800867588e-2);
  (0.7072341550237046, (-0.499343512413032), (-0.2843664701691355), 0.2982437800865273e-2);
  (0.7882708945288715e-1, 0.8621545008801837, (-0.2843664701684534), 0.2982437800863566e-2);
  ((-0.1798079430257987), 0.7639073125277335, (-0.3916632709551901), 0.1466557323209961e-2);
  ((-0.5716591672723068), (-0.537671902726336), (-0.3916632709550742), 0.1466557323217223e-2);
  (0.7514671102985679, (-0.2262354098013041), (-0.3916632709550005), 0.1466557323219012e-2);
  (0.2349121749284232e-1, 0.3303032323049931, (-0.5853404503565347e-1), 0.1461057795662250e-1);
  ((-0.2977965988756665), (-0.1448076250378262), (-0.5853404503336719e-1), 0.1461057795662684e-1);
  (0.2743053813811669, (-0.1854956072669932), (-0.5853404503471410e-1), 0.1461057795667047e-1);
  ((-0.3508185900315901), (-0.2086539551781068), 0.4349032593314631, 0.5561076940885510e-2);
  (0.3561089208016359, (-0.1994908334986071), 0.4349032593318472, 0.5561076940819906e-2);
  ((-0.5290330768361618e-2), 0.4081447886767858, 0.4349032593321483, 0.5561076940859880e-2);
  ((-0.4799997070573949), (-0.1021307936198597), (-0.7166469320204438e-1), 0.9751977499183117e-2);
  (0.3284477153105494, (-0.3646265433107137), (-0.7166469320319802e-1), 0.9751977499261835e-2);
  (0.1515519917450605, 0.4667573369306311, (-0.7166469320166638e-1), 0.9751977499259098e-2);
  (0.5503749362395663, (-0.1749249882226239), (-0.3651020078507813), 0.5302530732607095e-2);
  ((-0.1236979845612246), 0.5641011705032603, (-0.3651020078509204), 0.5302530732562353e-2);
  ((-0.426676951679799), (-0.3891761822782046), (-0.3651020078510956), 0.5302530732501225e-2);
  ((-0.1160913996018244), (-0.7369982797233314e-1), 0.66667416083591, 0.7136244952723934e-2);
  (0.1218716230766462, (-0.6368818722810367e-1), 0.6666741608427517, 0.7136244952687442e-2);
  ((-0.5780223478460763e-2), 0.1373880152000548, 0.6666741608415513, 0.7136244952687213e-2);
  ((-0.179596619245613), 0.6892964013212863, (-0.2850607980246553), 0.3962851386077182e-2);
  ((-0.5071498846594161), (-0.5001834353611165), (-0.2850607980246767), 0.3962851386075291e-2);
  (0.6867465039037227, (-0.1891129659598641), (-0.2850607980239678), 0.3962851386117417e-2);
  ((-0.4731311596169461e-2), 0.7982528447344757, (-0.3767139049041499), 0.3518864309482585e-2);
  ((-0.6889415863849245), (-0.4032238584029919), (-0.3767139049041446), 0.3518864309488224e-2);
  (0.6936728979813912, (-0.395028986330868), (-0.3767139049041464), 0.3518864309487660e-2);
  (0.1838019755826437, 0.7500159343054114, (-0.384732311329371), 0.1910503466789297e-2);
  ((-0.7414338401434005), (-0.2158307870331475), (-0.3847323113294659), 0.1910503466785413e-2);
  (0.5576318645605018, (-0.5341851472730395), (-0.3847323113294736), 0.1910503466785542e-2);
  ((-0.3157482778904093), 0.1685995980230182, (-0.1430711791014896e-1), 0.1114372702758599e-1);
  (0.1186260398816200e-1, (-0.3577458288655779), (-0.1430711790970269e-1), 0.1114372702763622e-1);
  (0.3038856739015107, 0.1891462308433379, (-0.1430711791041984e-1), 0.1114372702759230e-1);
  ((-0.3760156844932397), (-0.7541204156110640e-1), 0.2226893434846138, 0.9339073844350225e-2);
  (0.2533165859904101, (-0.2879331142125014), 0.2226893434844011, 0.9339073844312899e-2);
  (0.1226990985037814, 0.3633451557721906, 0.2226893434848597, 0.9339073844325385e-2);
  (0.3132847887437243e-1, (-0.1991229969303482), 0.186136871843591, 0.1427519172629088e-1);
  (0.1567813343830147, 0.1266927570309605, 0.1861368718416253, 0.1427519172633135e-1);
  ((-0.1881098132555542), 0.7243023989959384e-1, 0.1861368718431125, 0.1427519172637184e-1);
  ((-0.5940398288585815), (-0.4384238887740483), (-0.1072795622749953), 0.4705321020321325e-2);
  (0.6767061397330466, (-0.2952416382641486), (-0.1072795622745489), 0.4705321020382762e-2);
  ((-0.8266631087504343e-1), 0.7336655270377042, (-0.1072795622748554), 0.4705321020369120e-2);
  (0.579906374949189, (-0.42436365131016), (-0.6485516948547954e-1), 0.4787930353379107e-2);
  (0.7755651500224905e-1, 0.7143954781786902, (-0.6485516948561629e-1), 0.4787930353341169e-2);
  ((-0.657462889952257), (-0.2900318268675506), (-0.6485516948569679e-1), 0.4787930353337981e-2);
  (0.1959288531923632, (-0.2163615785319861), 0.5725622693459446, 0.3363836009342347e-2);
  (0.8941019681549953e-1, 0.2778601534641544, 0.5725622693472699, 0.3363836009325845e-2);
  ((-0.2853390500081148), (-0.6149857493356037e-1), 0.5725622693460108, 0.3363836009335837e-2);
  (0.2938476934905306, (-0.1719852784726787), (-0.2791087112264201), 0.1284569887457350e-1);
  (0.2019773488401272e-2, 0.3404722066425572, (-0.279108711226616), 0.1284569887456974e-1);
  ((-0.2958674669799366), (-0.1684869281697858), (-0.2791087112254542), 0.1284569887463706e-1);
  (0.3655020525321305, 0.4373945770482864, (-0.3714154371111505), 0.2752818417406538e-2);
  ((-0.5615458414677339), 0.9783677410376379e-1, (-0.3714154371112492), 0.2752818417393949e-2);
  (0.1960437889355228, (-0.5352313511523523), (-0.3714154371110855), 0.2752818417406429e-2);
  ((-0.5706595245720943e-1), 0.9238182796099402, (-0.3161738417128371), 0.2544892612698709e-2);
  ((-0.7715171223939032), (-0.5113297043238586), (-0.3161738417122791), 0.2544892612676544e-2);
  (0.8285830748522059, (-0.4124885752868345), (-0.3161738417134797), 0.2544892612707782e-2);
  (0.1011528057210596, 0.6305510675913090e-1, 0.8373277100424955, 0.3052619386398206e-2);
  ((-0.1051837271533038), 0.5607334603928896e-1, 0.8373277100425663, 0.3052619386307692e-2);
  (0.4030921431232027e-2, (-0.1191284527989022), 0.837327710042031, 0.3052619386349196e-2);
  ((-0.2124197258439737), (-0.2936373325714834), 0.2498873918545072, 0.8865680919273325e-2);
  (0.360507252427238, (-0.3714221255853142e-1), 0.2498873918552929, 0.8865680919243184e-2);
  ((-0.1480875265845512), 0.3307795451305264, 0.249887391855666, 0.8865680919267345e-2);
  ((-0.1651782199629099), 0.8626870981050186e-1, 0.5108904140436563, 0.9030103498125034e-2);
  (0.7878215733569789e-2, (-0.1861828895445977), 0.510890414043511, 0.9030103498122236e-2);
  (0.1573000042284481, 0.9991417973422896e-1, 0.5108904140435037, 0.9030103498131978e-2);
  ((-0.3617927525610758), 0.4408837263795412, (-0.3706147756740159), 0.2991177381103681e-2);
  ((-0.2009201308789826), (-0.5337635778128931), (-0.3706147756740524), 0.2991177381087045e-2);
  (0.5627128834404685, 0.9287985143315733e-1, (-0.3706147756740479), 0.2991177381095963e-2);
  ((-0.5015820600281335), (-0.1890175235323525), 0.2433004560275582, 0.2211164766946887e-2);
  (0.4144850071548899, (-0.3398740442993634), 0.2433004560300772, 0.2211164766969601e-2);
  (0.8709705287395679e-1, 0.5288915678318241, 0.2433004560291551, 0.2211164766996503e-2);
  (0.9434068372117834, (-0.5498302077599997), (-0.3538702545014873), 0.2973562062279324e-3);
  (0.4463509082121593e-2, 0.1091929391010154e1, (-0.3538702545021283), 0.2973562062207861e-3);
  ((-0.9478703462960307), (-0.5420991832506766), (-0.3538702545024522), 0.2973562062075669e-3);
  (0.200575172082975, 0.1088587293550235, (-0.3582651744000784), 0.9172628789611696e-2);
  ((-0.1945620110873523), 0.1192738297139006, (-0.3582651743999515), 0.9172628789611484e-2);
  ((-0.6013160997523850e-2), (-0.2281325590696736), (-0.3582651744000865), 0.9172628789627685e-2);
  ((-0.1255658338458569e-1), 0.5469934639217403, 0.8755062971445479e-1, 0.9783236108387362e-2);
  ((-0.4674319437690188), (-0.2843710521572813), 0.8755062971455986e-1, 0.9783236108363432e-2);
  (0.479988527151917, (-0.2626224117648735), 0.8755062971379197e-1, 0.9783236108405431e-2);
  ((-0.1716908737168969e-1), (-0.2160151309343958), (-0.1397307998126365), 0.1738125981964304e-1);
  (0.1956591346765856, 0.9313869964408443e-1, (-0.139730799812326), 0.1738125981965133e-1);
  ((-0.1784900473056204), 0.1228764312899015, (-0.1397307998124737), 0.1738125981965202e-1);
  ((-0.5462757915789873e-3), 0.6678287012945778, (-0.2183761124774179), 0.9766706161581359e-2);
  ((-0.5780834828017836), (-0.334387439360658), (-0.2183761124772129), 0.9766706161581049e-2);
  (0.5786297585932533, (-0.33344126193469), (-0.218376112477671), 0.9766706161590663e-2);
  ((-0.1833877013210589), (-0.2195399888316988), 0.5763507816362148, 0.3005216389199320e-2);
  (0.2818210581349795, (-0.4904841366906035e-1), 0.5763507816368744, 0.3005216389178637e-2);
  ((-0.9843335681437262e-1), 0.2685884025019004, 0.5763507816365103, 0.3005216389160241e-2);
  (0.1916617895075464, (-0.1097454506740659), 0.8062208425433149, 0.2785222700150757e-2);
  ((-0.7885465203364792e-3), 0.2208567039838767, 0.8062208425454057, 0.2785222700144989e-2);
  ((-0.1908732429835174), (-0.1111112533091888), 0.8062208425485021, 0.2785222700178524e-2);
  ((-0.4813891231174998e-1), 0.1023012688991847e1, (-0.4049658784349283), 0.3753359578155891e-3);
  ((-0.8618855209039119), (-0.5531958654682623), (-0.4049658784337947), 0.3753359578293081e-3);
  (0.9100244332179739, (-0.4698168235239601), (-0.4049658784361176), 0.3753359577958143e-3);
  ((-0.4424462871708599), (-0.348710568478134), 0.2225706813796632, 0.2191182863239439e-2);
  (0.5232153544540827, (-0.2088144402600705), 0.2225706813790471, 0.2191182863316704e-2);
  ((-0.8076906728405848e-1), 0.5575250087387288, 0.2225706813801265, 0.2191182863281961e-2);
  (0.2330164669103972, 0.4586604304883936, (-0.4096725239466332e-2), 0.2531026444894308e-2);
  ((-0.5137198179676699), (-0.2753203539748657e-1), (-0.4096725240921904e-2), 0.2531026444936393e-2);
  (0.2807033510564895, (-0.4311283950878784), (-0.4096725238250503e-2), 0.2531026444945725e-2);
  (0.3967080654003286e-12, 0.1424849530503414e-12, (-0.2592447810085974), 0.1445748928029682e-1);
  (0.1722425458471176e-11, 0.4163207520226179e-12, 0.1191149121741652e1, 0.1287820052356487e-3);
  (0.3502410373140708e-12, 0.2564407634679153e-12, 0.4120653127511454, 0.1574864463007665e-1);
  ((-0.2947942461866533e-11), (-0.9489253825677672e-12), 0.8435262601344188, 0.4621613088145150e-2);
  ((-0.1032091026644403e-11), 0.5725707601904812e-12, (-0.4003639673386698), 0.2792502892512972e-2);
  ((-0.4359393565820349e-12), (-0.4307858177802721e-12), 0.3321002545060888e-1, 0.1851564470805342e-1) ].
(** tetrahedron_arbq_rule.cpp:2981-3458 *)
Definition arbq_rule_15 : list arbq_row := [
  (0.2581521194788427, 0.3041753823660573, 0.1149415369298274, 0.2565379947273549e-2);
  ((-0.3924996680742822), 0.7147860232646702e-1, 0.114941536929798, 0.2565379947271849e-2);
  (0.1343475485954617, (-0.3756539846925305), 0.1149415369297721, 0.2565379947272177e-2);
  (0.1747936627600043, 0.3435025125820099, (-0.142514196488796), 0.6723785911414816e-2);
  ((-0.384878733539857), (-0.2037550392031693e-1), (-0.1425141964887534), 0.6723785911411640e-2);
  (0.2100850707798483, (-0.3231270086616979), (-0.1425141964887875), 0.6723785911413937e-2);
  ((-0.268615838548664), (-0.2097468053232621), (-0.389739165020216), 0.3085562545744757e-2);
  (0.3159539810469303, (-0.1277547373803833), (-0.389739165020212), 0.3085562545745181e-2);
  ((-0.4733814249823749e-1), 0.3375015427036143, (-0.3897391650202178), 0.3085562545744572e-2);
  (0.5356808415765576e-2, 0.9689475305431051e-1, 0.742528316718603, 0.4446982777989968e-2);
  ((-0.8659172184635908e-1), (-0.4380824435589394e-1), 0.7425283167186189, 0.4446982777989351e-2);
  (0.8123491343054050e-1, (-0.5308650869840935e-1), 0.7425283167186136, 0.4446982777990241e-2);
  ((-0.8144631134845116), (-0.5078056203162217), (-0.285611224208266), 0.1185105459270273e-2);
  (0.8470041241206219, (-0.451442936564845), (-0.2856112242082698), 0.1185105459270278e-2);
  ((-0.3254101063610144e-1), 0.9592485568810678, (-0.2856112242082572), 0.1185105459270443e-2);
  (0.2249358441935477, 0.7157685583829504, (-0.3891867546444293), 0.8364165694309715e-3);
  ((-0.7323416768865754), (-0.1630841238981528), (-0.3891867546444389), 0.8364165694306848e-3);
  (0.5074058326930275, (-0.5526844344847958), (-0.3891867546444343), 0.8364165694306367e-3);
  ((-0.5473570384341295), (-0.2432354197382121), 0.1847325582324109, 0.1867492375962935e-2);
  (0.4843265718105462, (-0.3524073903550577), 0.1847325582324027, 0.1867492375963348e-2);
  (0.6303046662358983e-1, 0.5956428100933059, 0.184732558232408, 0.1867492375962387e-2);
  ((-0.2378791442311287e-1), 0.2465506989117151, 0.5802704682522071, 0.4264615556690722e-2);
  ((-0.2016252113668169), (-0.1438762876493171), 0.5802704682522261, 0.4264615556689985e-2);
  (0.2254131257898949, (-0.1026744112624022), 0.5802704682522338, 0.4264615556689865e-2);
  ((-0.7391871819240758e-1), (-0.5477270770116898), (-0.3914413911049179), 0.1036750961119152e-2);
  (0.511304922128929, 0.2098480507360208, (-0.391441391104914), 0.1036750961119384e-2);
  ((-0.4373862039365108), 0.3378790262756754, (-0.3914413911049208), 0.1036750961118855e-2);
  ((-0.2968004530699073), 0.3217216264418476e-1, 0.406150067393071, 0.2897017453521770e-2);
  (0.1205383163903803, (-0.2731228135353417), 0.4061500673931097, 0.2897017453522957e-2);
  (0.1762621366794993, 0.2409506508911702, 0.4061500673930845, 0.2897017453522235e-2);
  ((-0.4241098255347354e-2), 0.4164310762083722, 0.580863239140085, 0.9931774636746942e-3);
  ((-0.3585193417940622), (-0.211888436933256), 0.5808632391400872, 0.9931774636749676e-3);
  (0.362760440049413, (-0.2045426392751013), 0.5808632391401026, 0.9931774636745359e-3);
  (0.4202386364031931e-2, (-0.2089419032777848e-1), 0.1122300778479799e1, 0.2968267531327685e-3);
  (0.1599370643332776e-1, 0.1408646851164702e-1, 0.1122300778479790e1, 0.2968267531331858e-3);
  ((-0.2019609279738776e-1), 0.6807721816119913e-2, 0.1122300778479803e1, 0.2968267531325610e-3);
  ((-0.5388551273867861e-1), 0.8415205240779101, (-0.170238260141001), 0.2082824878589059e-2);
  ((-0.701835395288124), (-0.4674264849665979), (-0.1702382601409925), 0.2082824878589280e-2);
  (0.7557209080267955, (-0.3740940391113035), (-0.1702382601409868), 0.2082824878589393e-2);
  (0.3646027806298292e-1, 0.711452204819021, (-0.2928517214460706e-1), 0.3532360099744144e-2);
  ((-0.6343658219832248), (-0.32415057537792), (-0.2928517214460719e-1), 0.3532360099743258e-2);
  (0.5979055439202614, (-0.3873016294411025), (-0.2928517214460035e-1), 0.3532360099742647e-2);
  (0.1258503466822884e-1, (-0.2836499225217341), (-0.2378639271913669e-1), 0.9852850436647919e-2);
  (0.2393555213511634, 0.1527239209910285, (-0.2378639271913052e-1), 0.9852850436649995e-2);
  ((-0.2519405560194015), 0.1309260015306806, (-0.2378639271915441e-1), 0.9852850436648092e-2);
  (0.3851625317792869e-2, (-0.1793772448187649), (-0.3876002482780669), 0.4465622015302662e-2);
  (0.1534194382150093, 0.9302422778043601e-1, (-0.3876002482780664), 0.4465622015302984e-2);
  ((-0.1572710635328328), 0.8635301703831089e-1, (-0.3876002482780634), 0.4465622015303046e-2);
  ((-0.3485301409937485e-2), (-0.1850282445363872), (-0.1573276400467179), 0.1064447126836857e-1);
  (0.1619818108911392, 0.8949576270733584e-1, (-0.1573276400467495), 0.1064447126836189e-1);
  ((-0.1584965094812263), 0.9553248182902167e-1, (-0.1573276400467503), 0.1064447126836531e-1);
  (0.5304635114647127e-1, (-0.4400731765980834), (-0.9846677659403662e-1), 0.4362160716691730e-2);
  (0.3545913748848099, 0.2659760759699537, (-0.9846677659401415e-1), 0.4362160716692162e-2);
  ((-0.407637726031304), 0.174097100628107, (-0.9846677659402990e-1), 0.4362160716691511e-2);
  (0.6653928546486268e-1, 0.2390789648881394, 0.4195749508887953, 0.7013986090707679e-2);
  ((-0.2403180998360646), (-0.6191477088183470e-1), 0.419574950888812, 0.7013986090706681e-2);
  (0.1737788143712072, (-0.1771641940062932), 0.4195749508888156, 0.7013986090707788e-2);
  ((-0.1667348931062531), 0.4096210148696401, 0.169870647828065, 0.4089047890127443e-2);
  ((-0.2713747582479675), (-0.3492071605621237), 0.1698706478280417, 0.4089047890127423e-2);
  (0.4381096513542055, (-0.6041385430752706e-1), 0.1698706478280619, 0.4089047890126841e-2);
  (0.9493532822319652e-1, (-0.5696877119302565e-1), 0.1001045633396894e1, 0.8331696920946515e-3);
  (0.1868738963948708e-2, 0.110700791554415, 0.1001045633396896e1, 0.8331696920946096e-3);
  ((-0.9680406718713280e-1), (-0.5373202036138137e-1), 0.1001045633396904e1, 0.8331696920947063e-3);
  ((-0.5105981722468006e-1), (-0.3459278156898313), 0.1278252986614525, 0.5692536319085584e-2);
  (0.3251121848754134, 0.128744809015723, 0.1278252986614319, 0.5692536319084854e-2);
  ((-0.2740523676507155), 0.2171830066740836, 0.1278252986614156, 0.5692536319085869e-2);
  ((-0.2080245286773480e-1), 0.1848839297874223, 0.6699851292944298e-1, 0.1193994326736248e-1);
  ((-0.1497129535134266), (-0.1104574175380845), 0.6699851292952046e-1, 0.1193994326737174e-1);
  (0.1705154063812837, (-0.7442651224930893e-1), 0.6699851292943053e-1, 0.1193994326736250e-1);
  (0.2921781238709439, (-0.3281604904126481), 0.1888603052005784, 0.4894866890556946e-2);
  (0.1381062592802215, 0.417113922908688, 0.1888603052005364, 0.4894866890557526e-2);
  ((-0.4302843831511968), (-0.8895343249598349e-1), 0.1888603052005152, 0.4894866890558155e-2);
  ((-0.8780905828000338e-1), (-0.2579549661893832), 0.4162319117452538, 0.4559845100025953e-2);
  (0.267300082892351, 0.5293260794183284e-1, 0.4162319117452708, 0.4559845100026132e-2);
  ((-0.1794910246123719), 0.2050223582475361, 0.4162319117452612, 0.4559845100026570e-2);
  ((-0.1944587456799732e-1), 0.3372003947615109, (-0.1429377419107346), 0.1112520926249036e-1);
  ((-0.2823011707456111), (-0.185440818755414), (-0.1429377419107034), 0.1112520926249222e-1);
  (0.3017470453136293, (-0.151759576006076), (-0.1429377419107302), 0.1112520926248886e-1);
  ((-0.7313431320411609e-1), 0.646898497210061, 0.7526757476604347e-1, 0.2944181342559152e-2);
  ((-0.5236633756518274), (-0.3867854217281152), 0.7526757476604869e-1, 0.2944181342559592e-2);
  (0.5967976888559381, (-0.2601130754819361), 0.7526757476604784e-1, 0.2944181342559789e-2);
  ((-0.3762507052448836), (-0.1143225565573846), 0.5502259745637508e-1, 0.8953416346063897e-2);
  (0.2871315908267298, (-0.2686813906552311), 0.5502259745639024e-1, 0.8953416346061954e-2);
  (0.8911911441816055e-1, 0.383003947212582, 0.5502259745637604e-1, 0.8953416346063781e-2);
  ((-0.3797896271838643e-1), 0.5589644756672905, (-0.3783645730290734), 0.3952683058023190e-2);
  ((-0.4650879543817582), (-0.3123729843571679), (-0.3783645730290731), 0.3952683058023330e-2);
  (0.5030669171001346, (-0.2465914913101748), (-0.3783645730290733), 0.3952683058022607e-2);
  (0.2750555493489867e-2, 0.8387518079361266, (-0.3557858186989302e-1), 0.1439142717612964e-2);
  ((-0.7277556508895471), (-0.4169938530361755), (-0.3557858186987815e-1), 0.1439142717612978e-2);
  (0.7250050953960729, (-0.4217579548999488), (-0.3557858186989157e-1), 0.1439142717612582e-2);
  (0.61230061385656, (-0.2157966455115084), (-0.118009477093553), 0.5039224704625283e-2);
  ((-0.1192649298638286), 0.6381662091083642, (-0.1180094770935434), 0.5039224704625251e-2);
  ((-0.4930356839927218), (-0.4223695635968309), (-0.1180094770935428), 0.5039224704625310e-2);
  ((-0.2645727220089428), 0.3525993310475737, (-0.1637480027557202), 0.7617567889070472e-2);
  ((-0.173073617040117), (-0.4054263639319154), (-0.1637480027557221), 0.7617567889069997e-2);
  (0.4376463390490505, 0.5282703288436957e-1, (-0.1637480027557144), 0.7617567889070361e-2);
  ((-0.6630962451131286e-1), 0.2418834699054176, 0.2977454860475704, 0.1054110867291372e-1);
  ((-0.176322417437979), (-0.1783675542949067), 0.2977454860475816, 0.1054110867291354e-1);
  (0.2426320419492632, (-0.6351591561047869e-1), 0.2977454860475674, 0.1054110867291408e-1);
  ((-0.4200384093190587e-2), 0.6281322404142361, 0.2596712604598457, 0.1741617181694419e-2);
  ((-0.5418782850881636), (-0.3177037595374698), 0.2596712604598533, 0.1741617181694472e-2);
  (0.5460786691813587, (-0.3104284808767618), 0.2596712604598482, 0.1741617181694386e-2);
  (0.5394663228522688e-1, (-0.2052354320960713), 0.2271508926955859, 0.1100640373498494e-1);
  (0.1507657818092707, 0.1493368700556973, 0.2271508926955554, 0.1100640373498203e-1);
  ((-0.2047124140944948), 0.5589856204040973e-1, 0.2271508926955697, 0.1100640373498438e-1);
  (0.1018171426999433, 0.5640658989533277, (-0.2779926178974129), 0.6926338144663090e-2);
  ((-0.5394039692520657), (-0.1938567173577759), (-0.2779926178973848), 0.6926338144663959e-2);
  (0.4375868265521267, (-0.370209181595563), (-0.2779926178974117), 0.6926338144663389e-2);
  (0.1245513301303478, 0.6735138338400053, (-0.3823432777224465), 0.2939871895670393e-2);
  ((-0.6455557549708775), (-0.2288923009519804), (-0.38234327772244), 0.2939871895670890e-2);
  (0.5210044248405197, (-0.4446215328880427), (-0.3823432777224473), 0.2939871895670184e-2);
  ((-0.9855929555799212e-1), 0.9198353888410614, (-0.377538632244491), 0.1098371982889171e-2);
  ((-0.7473211662573033), (-0.5452725481528549), (-0.3775386322444932), 0.1098371982888983e-2);
  (0.8458804618152944, (-0.3745628406882141), (-0.3775386322444943), 0.1098371982889088e-2);
  ((-0.1755388020283085), 0.7155166182904237, (-0.2829688627011475), 0.2867324218775673e-2);
  ((-0.5318861672552897), (-0.5097793710516186), (-0.2829688627011491), 0.2867324218775326e-2);
  (0.7074249692836033, (-0.205737247238819), (-0.2829688627011544), 0.2867324218775453e-2);
  ((-0.6267629157220122e-2), (-0.7296366071409344e-1), 0.9266659902735654, 0.2627584056743849e-2);
  (0.6632219831012681e-1, 0.3105390428539375e-1, 0.9266659902735608, 0.2627584056743863e-2);
  ((-0.6005456915289890e-1), 0.4190975642870679e-1, 0.9266659902735637, 0.2627584056743943e-2);
  ((-0.2023381108267559), (-0.9565958696542072e-2), 0.7042408708164912, 0.2450903116528004e-2);
  (0.1094534186561336, (-0.1704469647814408), 0.7042408708164883, 0.2450903116528749e-2);
  (0.9288469217061772e-1, 0.1800129234779798, 0.7042408708164785, 0.2450903116529087e-2);
  ((-0.6473499743579236e-1), 0.4108633257116824, 0.4116884047492347, 0.3781264707127557e-2);
  ((-0.3234505788317799), (-0.2614938151491584), 0.4116884047492301, 0.3781264707127677e-2);
  (0.3881855762675665, (-0.1493695105625245), 0.4116884047492345, 0.3781264707128319e-2);
  ((-0.1233025545427212), 0.4019320943505255, 0.1190964787818936e-1, 0.9717660774153364e-2);
  ((-0.2864321270324415), (-0.3077491917607414), 0.1190964787820830e-1, 0.9717660774155940e-2);
  (0.4097346815751876, (-0.9418290258973967e-1), 0.1190964787819720e-1, 0.9717660774153394e-2);
  (0.1989648914526389, 0.5045350850600017, (-0.9824886296290353e-1), 0.5844696436169811e-2);
  ((-0.5364226464888502), (-0.7995889207082835e-1), (-0.9824886296290938e-1), 0.5844696436168778e-2);
  (0.3374577550361906, (-0.4245761929892107), (-0.9824886296292371e-1), 0.5844696436168716e-2);
  (0.2178991630195039e-1, 0.6139865417154907, (-0.1210076932793752), 0.7798609566561363e-2);
  ((-0.5426229008583486), (-0.2881226497939412), (-0.1210076932793519), 0.7798609566560966e-2);
  (0.5208329845563997, (-0.3258638919215674), (-0.12100769327935), 0.7798609566562299e-2);
  ((-0.2014523059829409), 0.2411323094026556, (-0.2970323317075053), 0.9537993724461966e-2);
  ((-0.1081005526244278), (-0.2950289693335045), (-0.297032331707505), 0.9537993724462559e-2);
  (0.3095528586073633, 0.5389665993088002e-1, (-0.2970323317075011), 0.9537993724462396e-2);
  ((-0.1169567835631198e-1), (-0.1387829845896145), 0.5828065214604544, 0.6470868601806971e-2);
  (0.1260374294457714, 0.5926273772376190e-1, 0.5828065214604353, 0.6470868601806687e-2);
  ((-0.1143417510894922), 0.7952024686583803e-1, 0.5828065214604685, 0.6470868601806209e-2);
  (0.6829681010950600e-1, 0.295112105963141, (-0.3017876570907457), 0.9788338589999005e-2);
  ((-0.2897229857831844), (-0.8840928042931671e-1), (-0.3017876570907429), 0.9788338589999012e-2);
  (0.2214261756736523, (-0.2067028255338328), (-0.3017876570907401), 0.9788338589999477e-2);
  ((-0.4298175003068387), 0.4452698313519278e-2, (-0.3862244277990527), 0.4149912310618085e-2);
  (0.2110526002984961, (-0.3744592234135989), (-0.3862244277990511), 0.4149912310618563e-2);
  (0.218764900008327, 0.3700065251000597, (-0.3862244277990521), 0.4149912310618460e-2);
  (0.6578307149076966, (-0.1709423913837525), (-0.3804346304483138), 0.2801823664802904e-2);
  ((-0.1808749039318607), 0.6551693061916171, (-0.3804346304483134), 0.2801823664802910e-2);
  ((-0.4769558109758388), (-0.4842269148078915), (-0.3804346304483132), 0.2801823664803036e-2);
  ((-0.3704630736636612), (-0.156950196432308), 0.4614518667838061, 0.3473047605746596e-2);
  (0.3211543940711805, (-0.2423553347406391), 0.4614518667838234, 0.3473047605746489e-2);
  (0.4930867959248819e-1, 0.3993055311729469, 0.4614518667838163, 0.3473047605747130e-2);
  ((-0.119300551780856), 0.5306418717478397, (-0.2664567796530529), 0.8146696772355114e-2);
  ((-0.3998990653549201), (-0.3686382444016378), (-0.2664567796530461), 0.8146696772356077e-2);
  (0.5191996171357768, (-0.1620036273461921), (-0.2664567796530568), 0.8146696772355570e-2);
  ((-0.1504520555101911), (-0.4281943455532308), (-0.3834440210666236), 0.4104346629768971e-2);
  (0.4460532087610402, 0.8380187065320079e-1, (-0.3834440210666228), 0.4104346629769071e-2);
  ((-0.2956011532508667), 0.3443924749000115, (-0.3834440210666243), 0.4104346629768999e-2);
  (0.1975830054753616, 0.6606824681258688, (-0.2809660745834901), 0.3673293016416287e-2);
  ((-0.6709593039696905), (-0.1592293319651774), (-0.2809660745835049), 0.3673293016415687e-2);
  (0.4733762984943273, (-0.5014531361606821), (-0.2809660745834982), 0.3673293016415978e-2);
  ((-0.7463137388742009e-2), 0.4906473846181765, 0.1843225423322873, 0.7385814346097036e-2);
  ((-0.4211815306853685), (-0.2517869588796617), 0.184322542332289, 0.7385814346096885e-2);
  (0.4286446680740814, (-0.238860425738493), 0.1843225423322869, 0.7385814346097676e-2);
  (0.2049473200886011e-2, 0.2328287402613732, 0.7949931745648482, 0.1952835342529582e-2);
  ((-0.2026603403979144), (-0.114639474274342), 0.7949931745648681, 0.1952835342529196e-2);
  (0.2006108671970308, (-0.1181892659870265), 0.7949931745648552, 0.1952835342529467e-2);
  (0.7152086010197926e-1, 0.8423359525185951, (-0.2296019504049502), 0.2956577367937866e-2);
  ((-0.7652447634530471), (-0.3592290945104593), (-0.2296019504049503), 0.2956577367938132e-2);
  (0.6937239033510662, (-0.4831068580081231), (-0.229601950404941), 0.2956577367937872e-2);
  (0.2166839105383212, (-0.5245097380820163), (-0.3768873297184356), 0.2429727102722713e-2);
  (0.3458968024421906, 0.4499086401585516, (-0.3768873297184376), 0.2429727102722471e-2);
  ((-0.5625807129804981), 0.7460109792348690e-1, (-0.3768873297184345), 0.2429727102722800e-2);
  (0.1279853939984014, (-0.4297479750019432), (-0.2779742390429553), 0.7838569405690889e-2);
  (0.3081799665774158, 0.3257125900169633, (-0.27797423904296), 0.7838569405690287e-2);
  ((-0.436165360575796), 0.1040353849849871, (-0.2779742390429549), 0.7838569405690948e-2);
  ((-0.1577812374505563e-1), 0.8009161214805088, (-0.3088199065240608), 0.4786830078294293e-2);
  ((-0.6857246456300986), (-0.4141223167275365), (-0.3088199065240601), 0.4786830078294275e-2);
  (0.7015027693751511, (-0.3867938047529831), (-0.3088199065240508), 0.4786830078294352e-2);
  ((-0.7105996230949263e-3), 0.1065917694853711e1, (-0.3819799973245133), 0.6464879373388097e-3);
  ((-0.9227565022751169), (-0.5335742447523749), (-0.3819799973245119), 0.6464879373388156e-3);
  (0.9234671018982127, (-0.5323434501013379), (-0.3819799973245152), 0.6464879373387403e-3);
  ((-0.1882955447783474e-1), 0.8589493170871557, (-0.4015361795222331), 0.1094759729336998e-2);
  ((-0.7344571519218671), (-0.4457815310633328), (-0.4015361795222343), 0.1094759729336943e-2);
  (0.7532867063996859, (-0.4131677860238335), (-0.4015361795222284), 0.1094759729337179e-2);
  ((-0.3375217299349303), 0.4306281486266579, (-0.3045707129688655), 0.4183486775030887e-2);
  ((-0.2041740513278847), (-0.5076164667662489), (-0.3045707129688613), 0.4183486775030987e-2);
  (0.5416957812628146, 0.7698831813957928e-1, (-0.3045707129688553), 0.4183486775031043e-2);
  (0.4996795038021838, (-0.4434925905656182), (-0.3905755491124832e-1), 0.1388382329059297e-2);
  (0.1342360979189166, 0.6544814393259342, (-0.3905755491127184e-1), 0.1388382329058254e-2);
  ((-0.6339156017211199), (-0.2109888487602922), (-0.3905755491126780e-1), 0.1388382329057900e-2);
  (0.7596408799506882, (-0.5349560233082641), (-0.3726108784532423), 0.1547261679853963e-2);
  (0.8346506611711336e-1, 0.9253463114445929, (-0.3726108784532439), 0.1547261679853909e-2);
  ((-0.8431059460678011), (-0.3903902881363264), (-0.3726108784532431), 0.1547261679853913e-2);
  ((-0.8820027427037123), (-0.4904567228554135), (-0.2575990026123318), 0.5245559039887955e-3);
  (0.865749352801516, (-0.5186084199612601), (-0.2575990026123464), 0.5245559039888078e-3);
  (0.1625338990220750e-1, 0.1009065142816689e1, (-0.2575990026123427), 0.5245559039885548e-3);
  (0.7067742334596752, (-0.8915332085968262e-1), (-0.3954674471205766), 0.4714073461717449e-3);
  ((-0.2761780760336056), 0.656661101346199, (-0.3954674471205773), 0.4714073461717063e-3);
  ((-0.4305961574260422), (-0.5675077804865333), (-0.395467447120585), 0.4714073461712849e-3);
  ((-0.9186459446440826e-1), 0.1903042323297749, 0.7158508859841455, 0.1734297963526248e-2);
  ((-0.1188760024130717), (-0.1747091886794188), 0.7158508859841465, 0.1734297963526404e-2);
  (0.210740596877476, (-0.1559504365035713e-1), 0.7158508859841323, 0.1734297963527124e-2);
  (0.5405133012525005, (-0.9438608628742183e-2), (-0.9143187100549784e-1), 0.2194380264311005e-2);
  ((-0.2620825757773786), 0.4728175542824327, (-0.9143187100549642e-1), 0.2194380264311055e-2);
  ((-0.2784307254751027), (-0.4633789456536745), (-0.9143187100549681e-1), 0.2194380264311861e-2);
  (0.1458059413495244, (-0.5263345542684673), (-0.2639610543972574), 0.1505920846848116e-2);
  (0.3829161242112978, 0.3894389263656265, (-0.2639610543972473), 0.1505920846847692e-2);
  ((-0.5287220655607965), 0.1368956279028533, (-0.2639610543972535), 0.1505920846848549e-2);
  ((-0.1823158001392015e-13), (-0.1738343488671503e-14), (-0.3003943802989339), 0.1092191482369307e-1);
  ((-0.1699106971810907e-13), (-0.2490206331023665e-15), 0.4275416212259733, 0.1402579642206070e-1);
  (0.1569922552833598e-12, 0.1028727833546315e-12, 0.1454645115620674, 0.9137907285788647e-2);
  (0.5359985656924711e-13, 0.7810443937532853e-13, (-0.1072798570797851), 0.8807144129412933e-2) ].
(** tetrahedron_arbq_rule.cpp:3507-3566 *)
Definition arbq_rules : list (list arbq_row) := [
arbq_rule_1; arbq_rule_2; arbq_rule_3; arbq_rule_4; arbq_rule_5; arbq_rule_6; arbq_rule_7; arbq_rule_8; arbq_rule_9; arbq_rule_10; arbq_rule_11; arbq_rule_12; arbq_rule_13; arbq_rule_14; arbq_rule_15 ].
