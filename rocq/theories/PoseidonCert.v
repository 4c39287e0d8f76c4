(** Certificates about the matrices of PoseidonParams.v: parameters x_i, y_j with m_ij (x_i + y_j) = 1 (Goldilocks) and left
    inverses (BabyBear, Frog).  Not part of the code. *)
From Coq Require Import List ZArith.
Import ListNotations.
Local Open Scope Z_scope.

Definition gold_cx : list Z := [0; 5227290448797559015; 16844661153206472808; 10185781971047123779; 17468356209448881263; 13862284427058017412; 2897637639679348450; 17726357140366952948; 10939494839686248609; 3482988412610152276; 3216855620786421438; 17954993274040512422; 15920790593754320548; 18273997587245280856; 158963609459873618; 16905894631574293022; 9235886515414049657; 8140091817683156282; 1735923878610871325; 1919049973391889890; 14972536343487501981; 14447652988323919346; 12203904802948685393; 12329206455651529106].
Definition gold_cy : list Z := [15776591753726736; 13783237148557674916; 7120405433356790002; 10827602154509076184; 4912083723509897695; 4376612923672438070; 16241846223315950704; 12674151137765326332; 474410749432233422; 13356912609953686767; 1508578684214980068; 11032502422878586076; 15662852643673601912; 8520962939520541424; 8360714668833663806; 2605426223019977353; 10731804151654642086; 14649145427134621917; 17483769492654468444; 6845301674865128542; 6865818024534691536; 14829326560657859201; 16895010553590366665; 10397517247467171462].


Definition bb_minv : list (list Z) := [
  [1130981738; 346393729; 1826556810; 1872323272; 839879702; 365825866; 1673188122; 1991255335; 1992129541; 970902588; 1831703508; 1800084388; 859703961; 874722047; 1674070552; 254568454; 1263728741; 1111873245; 1473092388; 1652542889; 1425942352; 924764512; 479280544; 1307503557];
  [735002793; 1283465379; 2007171875; 1063514786; 1213771646; 343327455; 1504391650; 1248812608; 1397011440; 1592355929; 867887560; 314039339; 806672612; 328912800; 852871879; 564575313; 369507414; 1546688148; 1527894765; 1670655509; 1133619602; 312559198; 1119046578; 658410382];
  [505943933; 1404996567; 691216951; 1159325768; 311279515; 1545783394; 1389276609; 1584138291; 496387776; 777649793; 131853100; 83652520; 625287673; 1284376448; 969627655; 202056298; 673513849; 1631424296; 1884845152; 1816254561; 922266706; 1594520140; 965127819; 1057163348];
  [824435201; 1579500403; 1272359324; 347740288; 131478491; 1317527911; 1761194737; 71147734; 1323693940; 1349297812; 232758590; 458250134; 1100431754; 1785417010; 385296125; 1443017028; 1122548441; 701478227; 67226549; 1469570053; 37949227; 362184382; 808858813; 1189273696];
  [1086809581; 694866539; 757393472; 954349675; 1113290095; 1992864390; 464901494; 615876248; 134531742; 1656459303; 544461964; 656197113; 1756135328; 1023142892; 933111873; 1755739451; 397263957; 1133132949; 1158070648; 1015775691; 1287710939; 161866180; 1403406383; 1450510263];
  [1909552375; 728980933; 815744880; 1647015052; 1224160691; 1818152508; 1274386347; 1151217132; 1170275758; 50791661; 544585203; 1666929062; 1943465210; 1266822094; 1135368491; 1598457646; 392658630; 638732325; 709842380; 1616387324; 499913373; 44665414; 1367826596; 1346057510];
  [926242491; 568598276; 83188296; 482680315; 1765877928; 409434122; 1614175290; 1534862685; 999432600; 39564761; 826070951; 1459536141; 1101089681; 1348757280; 986680452; 1980071230; 916381538; 482919229; 1914362982; 1339588036; 217267210; 213355567; 1079214864; 1774696115];
  [684472157; 1369036024; 972962197; 1131340610; 739191208; 1261012907; 1081824091; 1318576655; 941863606; 1049416858; 425815353; 505652461; 1498824885; 172457894; 1281146829; 1676146473; 1066220889; 419631892; 603099471; 243210425; 112016409; 24905679; 1087501727; 588022696];
  [1250673743; 963943897; 849849198; 1544509735; 1863196851; 362582168; 1149326095; 1022846069; 357249650; 808584532; 331103013; 1786482288; 1119275719; 807718142; 207706208; 1059747746; 38356954; 890103213; 1022600227; 488133380; 1391267190; 1913808555; 74408150; 1687078927];
  [1024060325; 386206193; 761737553; 185439318; 1707966204; 80863705; 205487488; 1430545976; 763230243; 1387136405; 332872866; 1412565129; 1620661532; 985593310; 759928512; 1843371819; 693310514; 1371347911; 1388578296; 455754221; 16383685; 212366905; 789396941; 868957995];
  [1782396086; 636261230; 511763857; 563244011; 1949687938; 1263973214; 407256022; 1548116931; 1385443860; 936386638; 1780681693; 1046667535; 1703242560; 1386617356; 1064674998; 1766824786; 1240375672; 144095099; 285807321; 1023939965; 1205992664; 425726278; 1902436847; 1508564518];
  [242616679; 495368458; 692337785; 1877816446; 1875370506; 233321932; 1342086077; 457576603; 343080770; 168417785; 1364065112; 563592768; 1720029596; 1398605307; 553372209; 446285913; 793763291; 1644413324; 223477808; 1161361819; 102373837; 1730469283; 1254541065; 1037215150];
  [1899166595; 380374607; 1328426874; 11787730; 1874506403; 1663065380; 445681065; 1933196451; 630037905; 1773899153; 1732534260; 57250912; 1264562880; 700844997; 143565702; 464440733; 1254554273; 413376086; 885626938; 1559981715; 660530009; 1278215841; 1624363595; 1802617572];
  [119881196; 1159995364; 18807707; 1767575821; 779386865; 855051627; 1240247543; 1609004049; 1713452994; 401855115; 315498764; 531240574; 253121268; 396187499; 1123775820; 1568720298; 249388431; 407238463; 1296594218; 1247086121; 416615945; 469006135; 1157722743; 1431050263];
  [656585914; 988855248; 1602791764; 640371777; 792182317; 537367616; 1899821966; 704709418; 170562964; 1165014683; 1617041753; 1981750526; 93531853; 154686421; 22738006; 267806098; 1383161115; 484422254; 1287675165; 1428550990; 503651095; 1262382960; 1208084297; 253185633];
  [699235111; 1620295568; 469482834; 195188575; 1806188627; 1095730239; 1138776450; 189459938; 262637316; 987227566; 110078184; 2003765385; 1691728026; 1621101001; 222541989; 1018220967; 1574010960; 53852596; 1572401078; 1635580496; 1117824373; 988765281; 53315320; 1913756305];
  [1819959208; 486215350; 1396016525; 605699257; 1480513834; 766372499; 1070199099; 1017983880; 1560013180; 1460860348; 431388155; 1298406816; 1877575381; 378553642; 191775128; 1816635430; 1573411066; 1516129475; 1205785686; 332988218; 1031194185; 1597180557; 861767299; 1911994900];
  [1408754133; 1537269601; 1203712780; 899311062; 998028798; 59644772; 59975728; 1354350043; 1661038506; 1535028943; 1160022909; 929413774; 1804062896; 154642622; 1620910639; 1745574964; 1824683298; 527206075; 1670792487; 1880625554; 1699258397; 675945448; 202686860; 722284063];
  [1741815526; 2009065377; 1094252477; 2012748842; 921668030; 1295858731; 1097449958; 32236429; 1364376318; 338615625; 2000784349; 1227902245; 1431566314; 959186871; 493505164; 1075006325; 1375855283; 674575560; 876225407; 1553527589; 1112771804; 1230200475; 379332060; 775680682];
  [1420622745; 500484300; 1412476312; 722288100; 1593329441; 216349993; 344673356; 1701895717; 611750031; 1259271096; 1184603150; 137900033; 462682650; 1345793493; 1387768014; 1196675757; 1415260371; 476921190; 677098269; 600958167; 1030658294; 722006393; 691864093; 1762672502];
  [414327704; 739981414; 795583230; 1541085051; 670761466; 674724064; 1533304401; 977848217; 139248441; 1264126708; 1857166627; 1430123838; 387524535; 973308269; 1425673334; 1701008305; 1973418671; 1458011587; 1121448; 340940416; 121842500; 162214515; 1412332799; 494477652];
  [1513748644; 1831064410; 1454284729; 1572327247; 873383729; 319824736; 1662057842; 226582385; 703687885; 1644299623; 208096953; 1743497822; 1322186228; 1374586876; 78711181; 1357081760; 1700222329; 1557357277; 1819920598; 406175121; 813475695; 897353001; 626110606; 1332411353];
  [929528311; 1038329801; 385014166; 886584439; 1595215522; 1722701219; 1872642687; 288991472; 906019300; 1273268656; 117510344; 726000458; 449359296; 83237131; 229825266; 1543258778; 844347403; 1195948612; 1976450168; 381104715; 1971431474; 830026883; 1968845563; 408525815];
  [897288080; 533037489; 1019104495; 1721476185; 1665683421; 1109774128; 966775396; 1313814842; 1125405554; 1425300667; 1134324704; 1515959951; 189642446; 1921480529; 912362825; 220665115; 1692383116; 818929129; 1539311051; 905305366; 1958979682; 1905893699; 1720939712; 1061516833]].

Definition frog_minv : list (list Z) := [
  [5599598010420636462; 15774370204171554852; 8100424460423951469; 12499346655299201556; 14563273481486150883; 9608537731623316116; 9595565102541447276; 6582927522681060082; 4412094584027053080; 951882689584474503; 13151756821802742206; 13479307602265733180; 12680273670968533318; 3764675357154305258; 14025961798969866005; 13025362089354156941; 7001545319955027562; 1682063148151448410; 9443542540406239756; 12442733108501432077; 14526773406162072978; 11425401433614862152; 5761312283184265179; 1616455805922176518];
  [4777954804988641956; 4443618274219017549; 6652479844380989498; 543119406206281612; 6643114857705047771; 15550668570885597314; 5451762424052533781; 3878080118365652882; 9603249111906525120; 2539192979268636333; 13996939822955894164; 9318541342921544897; 1064599469996921258; 4543304238775964677; 14601395713160579838; 305579229756185936; 9720502252595401720; 13422490883498546391; 3797277067356464857; 3093146565636290972; 4939949012371156817; 1720289098781653454; 7539472050507444924; 12043746601272163514];
  [6494357764943377541; 13286766110200397580; 8539483746066910967; 9104309839416962125; 3969083063383033264; 1795543220808636948; 6390260188736512660; 4171155581320773320; 9536001768132891378; 10129345302987098472; 6377966119041572245; 9185397308654960746; 2487453356485740621; 5122457612452538988; 13110682276633512445; 5695700850845358987; 11375766631596182021; 11383915556184124672; 4127491510690766710; 8279589824804825972; 2822857256354854703; 2586675122156579264; 181669830411408305; 7131400484607064264];
  [4032183791179318576; 2519355698544974238; 4227457985812622388; 223256116733290010; 4457139094413441950; 2984516942944676333; 7461283613953428077; 6052024260487491878; 12443703720175729212; 11943966783028651182; 14279314623368945195; 2111807518476994910; 1445748319210128720; 2586748803260963437; 8925369682479391788; 9717073850846997178; 1915905796463489993; 2527538362505651593; 1199669846334845047; 15050002487299369109; 5623179380819224878; 8628454517988285081; 2990206302730766755; 15108823891262449133];
  [3296041985043392449; 13778067220972559218; 9510981305905743283; 7170622637985727506; 1171645017765102587; 12009778299140486931; 14023177237802618214; 7702112090209637138; 489220857310715304; 11855067307504059283; 15130489648816071881; 7491607487949023605; 10902702049813438340; 14856344834593438669; 8452535437948911199; 9982660568989593304; 11686791447905156603; 8592510969247341371; 11571520436252335417; 1799640880370506026; 6321691266312286068; 7936184731305983346; 10849600962416066155; 5105978768045107453];
  [1216556217793399866; 13985876997208771447; 13909192304739728046; 12614001574121191378; 12173841686317941445; 13801734203416884520; 6297305682352972268; 2161564557346880945; 9250395442049415101; 21378787493530705; 9093931901335729409; 9892650939361971454; 7970797351355057419; 4369216250013616971; 14353269903994415221; 14501505517659614466; 705716775600401642; 5533529131616933911; 14470216353900990102; 5438303465505326647; 1825414853601183492; 536043601535474069; 8487589861462157440; 7170418285860910921];
  [11525942798879626243; 853085826328859791; 631562003366969585; 14206903455352499961; 3469149028863340175; 5587406918539885668; 3478721590328587097; 8443733380486866090; 7849299696788753590; 6604579865713606981; 4468271130635665675; 5512272552521637305; 2747646146876844783; 4785946214514554824; 14411411674185094870; 14194627073586256927; 12292301514510933531; 310896811665095155; 9498868650632806267; 4701853887924002890; 7006033670205315099; 15216300143451933736; 3926232657357787249; 6329003058722189105];
  [8669432996842312887; 9172198534147478948; 14751195142217733143; 14593764312742965133; 14331571269674032805; 15821469435867218450; 10246549112458899851; 4906524761246854783; 14435901358530483356; 6191138632629549320; 6705539084522897186; 7869307599360184149; 5818589078284231594; 11430434601187897736; 6341356102178549002; 943457940744420170; 6353612770045687192; 2839913742351852654; 4170193850393917557; 14200145948686818473; 3977355741575910362; 541057765192765687; 450610371981703375; 2363909102524909951];
  [10590155468515720393; 670280233956097915; 14345912537469794302; 15585660876320112701; 13864440811505394020; 3310657187862036412; 1630039387774311585; 5472712166550453592; 67280446316845527; 3982815428586476084; 1311585603992569664; 6138493774082700093; 2156269359140747453; 14130001402558845029; 6206037729614311030; 11164343538239760947; 14175104274818918505; 13409304615619285922; 10599785769730275168; 15541812877025976901; 3991239144484318503; 11301760982431261738; 11238736787522679832; 5231522976040976563];
  [6520220758804487396; 1438141180185521749; 13860862956164774199; 824894368818629504; 8625061252608442767; 13993834610116855896; 14930060236810558009; 9780709403444101806; 10791825454746166740; 188391164830955602; 1229809123054575370; 12658915956773662690; 12858609246970547443; 9471014222119857325; 12423236681789316579; 5707111576420791640; 10904261499042109165; 9295117760306495717; 15187220319595923591; 11924688947345639217; 10191839486469896000; 79026532983064946; 10740323868203301064; 10993275259159894674];
  [15818573404631256403; 5216793344742841469; 11862422013233151909; 8920343140913381780; 3631548987614227038; 12741166317052160617; 12044446965238001216; 14760976603398227010; 13449209881570830956; 3944287327062878574; 8413895230183639314; 13080334649089625499; 12358674144229466095; 14224782972340348355; 15471791350313601135; 9432246656774242610; 1933478335107980627; 6281555746737778045; 5840757504703328347; 7751896726397610178; 7535543371425383308; 12118862374868627309; 8478886296776790767; 12022696639482489245];
  [4526613671311625156; 4684857327695984296; 9484305004880919105; 5131803069916010493; 2020665602772101192; 3840234482325753711; 3406146439649088876; 7703905189670760428; 563309967596907390; 8957414841643664783; 15833951453880479390; 13111426943126511764; 11472021041243668921; 4184849116164179306; 7465251622673869700; 9640944753365736802; 15450098465418043964; 11905691464543081691; 2015487280871936469; 603294307220550383; 7982158160570579460; 1298433763806252626; 3065419791580563834; 5279067767409158418];
  [2086641554250650191; 5127610827925816931; 13566053302204855375; 13315584598982674046; 15616849212796854515; 6683983009622271489; 10915137170236132259; 4081701256099378089; 11512925856896111033; 6532748738984177959; 2224432461119446718; 9652602166979617348; 2342169889606777458; 7107591070712635811; 15620814395512285615; 13322040476087872559; 1706063179365662063; 11835318741343946302; 2429206222989863154; 11269876144966787522; 3828130230605208802; 1819367301993642082; 14488117623832205837; 9130305316930661093];
  [11582881563901976126; 8050038811758241129; 4950781741619606502; 11747264415080176653; 3559295672869038195; 13642389032065913288; 4367406642548596173; 13268866869166457633; 1674654033081607798; 7896775170999773568; 6124964907010082036; 13511424731525280356; 11513414758771185789; 13768851644408539662; 11811408563271913885; 3157148444377707552; 7180751382357482441; 11443215946876791874; 4367005809736490327; 10135818253446424503; 3578789290806718873; 10677862317906807484; 12997287623806718105; 4974695604894747470];
  [4277451480078838959; 8239686380554716815; 8755409825029624004; 7883794772057331851; 15510310684925760466; 12848112677525821237; 9319819902356763837; 371863031727962859; 14264770879601024301; 12127836320895764076; 7903795087166049422; 13633940421155589153; 15676644763462921785; 4270577609645872164; 11302940684308460353; 13859298391781316846; 4337255254286689850; 7147029529305967378; 13455334062324768512; 1364714604282731619; 15337070474413573403; 6832219154180642522; 1632754496371814923; 10458122602955809303];
  [2505773481635072867; 11039131936155000063; 12432047678267098247; 1851374494963367366; 9653810990671918355; 14787817308888232505; 14291106743117432378; 9973135741616037385; 4479047746623824874; 4027273926901054015; 11821093149435085013; 7007610025926593887; 10126320144872476789; 12841873112847655522; 8925407076361370457; 14909205964144085664; 997998342027265490; 14841716391602913093; 4403029553148375235; 10616900451665126854; 1490179447807435958; 6081188396119493045; 7688252760796164402; 6607155486118026299];
  [8514023244428141098; 504274351262458393; 13252591478016928252; 11237236539638637677; 8728001890941652980; 7108400580991881375; 14891273645673980838; 12231102072166008917; 1982859767044980701; 2907402915188751756; 2083025039891184686; 3519863362225619433; 6090093850813683728; 10995285803055905268; 3556169789590336076; 14827634109017863145; 876814975987495992; 2803182571077731627; 880639923901989733; 9604836440323292962; 9651547807137152071; 1987188888694125472; 14483148736704304151; 11333972002732462025];
  [2853560214269479721; 12087513256918427874; 9798630251469652917; 6349137821703721805; 3795813989899962741; 13673010135429173075; 1303157278103021684; 13059924459544453876; 13594383151636187810; 11434616024167185320; 1052002407952359855; 39821220540422364; 5919324543658648243; 12270694183873844212; 15425930360754724499; 10061869945747167344; 10216324818000264323; 1271979785365521880; 13986158761322060980; 698831484245751614; 13956690166354604855; 13552641310708009135; 7664439467788075149; 14782214019276687174];
  [12108679370143660928; 13672254822355325318; 5518019878027359254; 14286815313547394409; 4903173525841280819; 7474953709776357634; 2339777698806560337; 4447657592872319078; 6070826577215436965; 9705435122965106253; 10788530506715273053; 13779622992091186875; 1979757628781735806; 4108815062287160477; 14284801838244329378; 15132850774446040128; 13781289566825379282; 3760094322180295517; 1417458103438700767; 79792299232629229; 12622087421273078363; 555843434596709332; 867352851007561219; 3382905897840648177];
  [9225815166668044429; 7545169061958076129; 7046150739188077510; 11765498805721606041; 5324564251548255891; 8928511280186006330; 15464870780163764150; 15383479587046514757; 11078909544719218239; 4646807568427721578; 13909162158664765622; 9258974560611294026; 4451104390761263751; 8809310158153853094; 15302125373108918655; 9728631122900229078; 3513215366855897066; 8286838540100999040; 8743880319007301553; 14309999569871221807; 11133704968148034330; 13205587851454500484; 6142720747371648652; 12807499525716678795];
  [8087895085219077492; 13164616845754870052; 14275526504612426935; 6714111909532217518; 13424803426266018390; 6040149992359772869; 11674192784029529978; 9207133979935208589; 7325543970082713713; 4589686940720802031; 2650377875896183482; 8934892468806952507; 6554275971058960745; 6674056079081562025; 4809033283826703390; 8597102100111718776; 14077217891506371285; 4317070707911978397; 12227890523223854298; 6685117635755693927; 8827329270565518423; 13382676679381774721; 5290497159784783812; 15878579229944116488];
  [744054576697927712; 5467887386411954023; 8087078624790606908; 8429273773701565175; 8289633211956199957; 9263241581769952587; 8839913914683977608; 3326293255544686070; 2338161099530078821; 1834696835971195904; 4372895469646777556; 13062353513622759218; 9876006116137002032; 10975085498520226094; 6521581823967679471; 3225633361599556081; 7933441312844534656; 6190755428494629020; 13512271805251893845; 539113514576269567; 10804743683258056810; 8075784149231248156; 8441438199034046796; 15136465536876721638];
  [10690707500811251074; 5700759219022890270; 12382896592563660218; 3561608366421367236; 7686001117074976788; 8062873925935246514; 13268406468608620584; 12189006203938946486; 13217661826238555397; 7744985818167179920; 5630868977558526420; 10283066401467298151; 2164967349615091153; 6915600937722045765; 11909854297475983502; 14442310060391860232; 382866978481793036; 10159079456003905066; 1323615277140760087; 15404661656684784877; 3811564146182323648; 14389220269109821482; 1674907622781088931; 10987880151894917125];
  [4304962631477979760; 8217710197190615949; 8702597291699946896; 11497013929099383140; 7243003240572107005; 7933724949489612209; 9187385525421414583; 4684135455214757705; 7174031226336671668; 565138618893277397; 10759817908019043296; 1912925767140073353; 6390791421057241431; 10635821920629046858; 15210291860574530180; 11546468841960552820; 10793398347167473391; 13539068739445262000; 7961606490305744295; 4160349917252997294; 8326210379657501433; 8340167491365907318; 358804857867806763; 529538211886307182]].

(** A state with six nonzero elements that the BabyBear matrix maps to one with eighteen. *)
Definition bb_sparse : list Z := [0; 0; 0; 0; 0; 0; 0; 0; 69466228; 0; 0; 524615172; 0; 0; 2013265920; 0; 0; 1922766348; 0; 0; 0; 0; 260891022; 975001650].
