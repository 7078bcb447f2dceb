-Q theories Verif
theories/AccModel.v
theories/AccProps.v
theories/AccSpec.v
theories/AdModel.v
theories/AdProofs.v
theories/AdProps.v
theories/ApModel.v
theories/ApProofs.v
theories/ApProofs2.v
theories/ApProofs3.v
theories/ApProps.v
theories/ApSpec.v
theories/Base.v
theories/CBase.v
theories/CheckModel.v
theories/CheckProofs.v
theories/CheckProps.v
theories/CheckSpec.v
theories/CmdModel.v
theories/CmdProofs.v
theories/CmdProofs2.v
theories/CmdProps.v
theories/CmdSpec.v
theories/ConfigModel.v
theories/ConfigProofs.v
theories/ConfigProps.v
theories/ConfigSpec.v
theories/CtrlModel.v
theories/CtrlProofs.v
theories/CtrlProps.v
theories/CtrlSpec.v
theories/CubModel.v
theories/CubProofs.v
theories/CubProps.v
theories/CullProofs.v
theories/DiffModel.v
theories/DiffProofs.v
theories/DiffProofs2.v
theories/DiffProofs3.v
theories/DiffProofs4.v
theories/DiffProps.v
theories/DiffSpec.v
theories/DmFitProofs.v
theories/DmModel.v
theories/DmProofs.v
theories/DmProps.v
theories/DmSpec.v
theories/DmSurfModel.v
theories/DmSurfProofs.v
theories/DmSurfProofs2.v
theories/DmSurfSpec.v
theories/DmcModel.v
theories/DmcProofs.v
theories/DmcProps.v
theories/EfcModel.v
theories/EfcProofs.v
theories/EfcSpec.v
theories/EllModel.v
theories/EllProofs.v
theories/EllProofs2.v
theories/EllProps.v
theories/EllSpec.v
theories/ErrModel.v
theories/ErrProofs.v
theories/ErrProofs2.v
theories/ErrProps.v
theories/ErrSpec.v
theories/EstModel.v
theories/EstProofs.v
theories/EstProofs2.v
theories/EstProofs3.v
theories/EstProps.v
theories/EstSpec.v
theories/FilmModel.v
theories/FilmProofs.v
theories/FilmProofs2.v
theories/FilmProps.v
theories/FilmRefProps.v
theories/FilmSpec.v
theories/FitModel.v
theories/FitProps.v
theories/FitSpec.v
theories/GradAdj.v
theories/GradAdj2.v
theories/GradModel.v
theories/GradProofs.v
theories/GradProofs2.v
theories/GradProofs3.v
theories/GradProofs4.v
theories/GradProofs5.v
theories/GradProofs6.v
theories/GradProofs7.v
theories/GradProofs8.v
theories/GradProps.v
theories/GradSpec.v
theories/GsfModel.v
theories/GsfProofs.v
theories/GsfProofs2.v
theories/GsfProofs3.v
theories/GsfProofs4.v
theories/GsfProofs5.v
theories/GsfProps.v
theories/GsfSpec.v
theories/HlcModel.v
theories/HlcProofs.v
theories/HlcProps.v
theories/HlcSpec.v
theories/HoleModel.v
theories/HoleProofs.v
theories/HoleProps.v
theories/ImgModel.v
theories/ImgProofs.v
theories/ImgProps.v
theories/ImgSpec.v
theories/JacModel.v
theories/JacProofs.v
theories/JacProofs2.v
theories/JacProps.v
theories/JacSpec.v
theories/LinBase.v
theories/MagModel.v
theories/MagProofs.v
theories/MagProofs2.v
theories/MagProofs3.v
theories/MagProps.v
theories/MagSpec.v
theories/MaskModel.v
theories/MaskProofs.v
theories/MaskProps.v
theories/MaskSpec.v
theories/ModalProofs.v
theories/NgonModel.v
theories/NgonProps.v
theories/NgonSpec.v
theories/NiModel.v
theories/NiProofs.v
theories/NiProofs2.v
theories/NiProofs3.v
theories/NiProps.v
theories/NiSpec.v
theories/NoiProps.v
theories/OctModel.v
theories/OctProofs.v
theories/OctProofs2.v
theories/OctProps.v
theories/OctSpec.v
theories/OptModel.v
theories/OptProofs.v
theories/OptProofs2.v
theories/OptProofs3.v
theories/OptProofs4.v
theories/OptProofs5.v
theories/OptProofs6.v
theories/OptProofs7.v
theories/OptProofs8.v
theories/OptProps.v
theories/OptSpec.v
theories/OptvModel.v
theories/OptvProofs.v
theories/OptvProofs2.v
theories/OptvProps.v
theories/OptvSpec.v
theories/PokeModel.v
theories/PokeProofs.v
theories/PokeProofs2.v
theories/PokeProofs3.v
theories/PokeProofs4.v
theories/PokeProofs5.v
theories/PokeProofs6.v
theories/PokeProofs7.v
theories/PokeProofs8.v
theories/PokeProofs9.v
theories/PokeProps.v
theories/PokeSpec.v
theories/PolyProofs.v
theories/PolyProofs2.v
theories/PolyProofs3.v
theories/PolyProofs4.v
theories/PolyProps.v
theories/PolySpec.v
theories/PoolModel.v
theories/PoolProofs.v
theories/PoolSpec.v
theories/ProbeProps.v
theories/PropModel.v
theories/PropProofs.v
theories/PropProofs2.v
theories/PropProps.v
theories/PropSpec.v
theories/PrpModel.v
theories/PrpProofs.v
theories/PrpProofs2.v
theories/PrpProofs3.v
theories/PrpProofs4.v
theories/PrpProofs5.v
theories/PrpProofs6.v
theories/PrpProofs7.v
theories/PrpProofs8.v
theories/PrpProps.v
theories/PrpSpec.v
theories/PsdModel.v
theories/PsdProofs.v
theories/PsdProofs2.v
theories/PsdProofs3.v
theories/PsdProofs4.v
theories/PsdProps.v
theories/PsdSpec.v
theories/RBase.v
theories/RectModel.v
theories/RectProofs.v
theories/RectProofs2.v
theories/RectProofs3.v
theories/RectProofs4.v
theories/RectProofs5.v
theories/RectProps.v
theories/RectSpec.v
theories/ResampProps.v
theories/RotModel.v
theories/RotProofs.v
theories/RotProofs2.v
theories/RotProps.v
theories/RunModel.v
theories/RunProps.v
theories/SavModel.v
theories/SavProofs.v
theories/SavProps.v
theories/SchedModel.v
theories/SchedProofs.v
theories/SchedProps.v
theories/SchedSpec.v
theories/SetupModel.v
theories/SetupProofs.v
theories/SetupProps.v
theories/SetupSpec.v
theories/SimpModel.v
theories/SimpProofs.v
theories/SimpProofs2.v
theories/SimpProofs3.v
theories/SimpProofs4.v
theories/SimpProps.v
theories/SimpSpec.v
theories/SpectModel.v
theories/SpectProofs.v
theories/SpectProofs2.v
theories/SpectProps.v
theories/SpectSpec.v
theories/SrcModel.v
theories/SrcProofs.v
theories/SrcProps.v
theories/SrcSpec.v
theories/StrBase.v
theories/TabModel.v
theories/TabProps.v
theories/ThinModel.v
theories/ThinProofs.v
theories/ThinProofs2.v
theories/ThinProofs3.v
theories/ThinProofs4.v
theories/ThinProofs5.v
theories/ThinProofs6.v
theories/ThinProps.v
theories/ThinSpec.v
theories/ThpModel.v
theories/ThpProofs.v
theories/ThpProps.v
theories/UtilModel.v
theories/UtilProofs.v
theories/UtilProps.v
theories/UtilSpec.v
theories/UtuModel.v
theories/UtuProofs.v
theories/UtuProps.v
theories/VxModel.v
theories/VxProofs.v
theories/VxProofs2.v
theories/VxProofs3.v
theories/VxProofs4.v
theories/VxProps.v
theories/VxSpec.v
theories/WfscModel.v
theories/WfscProofs.v
theories/WfscProps.v
theories/WfscSpec.v
theories/WinProofs.v
theories/WinProps.v
theories/WinSpec.v
theories/ZrnMapProps.v
theories/ZrnModel.v
theories/ZrnProofs.v
theories/ZrnProofs2.v
theories/ZrnProofs3.v
theories/ZrnProofs4.v
theories/ZrnProofs5.v
theories/ZrnProofs6.v
theories/ZrnProofs7.v
theories/ZrnProofs8.v
theories/ZrnProps.v
theories/ZrnSpec.v
theories/ZsnModel.v
theories/ZsnProofs.v
theories/ZsnProps.v
