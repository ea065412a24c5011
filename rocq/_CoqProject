-Q theories Verif
theories/Base.v
theories/CrossModel.v
theories/CrossSpec.v
theories/ListFacts.v
theories/CrossProofs.v
theories/TpProofs.v
theories/TcProofs.v
theories/EcrossModel.v
theories/EcrossProofs.v
theories/CrossProps.v
theories/RfcModel.v
theories/RfcSpec.v
theories/RfcFilterProofs.v
theories/RfcProofs.v
theories/RfcTopProofs.v
theories/RfcProps.v
theories/AstmModel.v
theories/AstmSpec.v
theories/AstmProofs.v
theories/AstmProps.v
theories/CyclesModel.v
theories/CyclesSpec.v
theories/CyclesProofs.v
theories/CyclesProofs2.v
theories/CyclesFacts.v
theories/CyclesProps.v
theories/BitsModel.v
theories/BitsProofs.v
theories/BitsProps.v
theories/MarkovModel.v
theories/MarkovSpec.v
theories/MarkovProofs.v
theories/MarkovProps.v
theories/FlagsModel.v
theories/FlagsSpec.v
theories/FlagsProofs.v
theories/FlagsProps.v
theories/PolyModel.v
theories/PolySpec.v
theories/PolyProofs.v
theories/PolyProofs2.v
theories/OrthoModel.v
theories/OrthoSpec.v
theories/OrthoProofs.v
theories/PolyProps.v
theories/ChebModel.v
theories/ChebSpec.v
theories/ChebProofs.v
theories/ChebProofs2.v
theories/ChebProofs3.v
theories/ChebProps.v
theories/PPModel.v
theories/PPSpec.v
theories/PPProofs.v
theories/PPProofs2.v
theories/PPProps.v
theories/SplineModel.v
theories/SplineSpec.v
theories/LinAlg.v
theories/SplineProofs.v
theories/SplineProofs2.v
theories/SplineProofs3.v
theories/SplineProofs4.v
theories/SplineProps.v
theories/SlopesModel.v
theories/SlopesSpec.v
theories/SlopesProofs.v
theories/SlopesProofs2.v
theories/SlopesProofs3.v
theories/SlopesProofs4.v
theories/SlopesProofs5.v
theories/SlopesProofs6.v
theories/SlopesProps.v
theories/SelectModel.v
theories/SelectSpec.v
theories/SelectProofs.v
theories/SelectProps.v
theories/GeomModel.v
theories/GeomSpec.v
theories/GeomProofs.v
theories/GeomProps.v
theories/IndexModel.v
theories/IndexSpec.v
theories/IndexProofs.v
theories/IndexProps.v
theories/QuadModel.v
theories/QuadSpec.v
theories/QuadProofs.v
theories/QuadProofs2.v
theories/QuadProofs3.v
theories/QuadProofs4.v
theories/QuadProofs5.v
theories/QuadProofs6.v
theories/QuadProps.v
theories/AdaptModel.v
theories/AdaptSpec.v
theories/AdaptProofs.v
theories/AdaptProofs2.v
theories/AdaptProofs3.v
theories/AdaptProofs4.v
theories/AdaptProofs5.v
theories/AdaptProofs6.v
theories/AdaptProps.v
theories/KalmanModel.v
theories/KalmanSpec.v
theories/KalmanProofs.v
theories/KalmanProps.v
theories/FilterModel.v
theories/FilterSpec.v
theories/FilterProofs.v
theories/FilterProofs2.v
theories/FilterProofs3.v
theories/FilterProofs4.v
theories/FilterProps.v
theories/GridModel.v
theories/GridSpec.v
theories/GridProofs.v
theories/GridProofs2.v
theories/GridProofs3.v
theories/GridProofs4.v
theories/GridProofs5.v
theories/GridProofs6.v
theories/GridProps.v
theories/DftModel.v
theories/DftProofs.v
theories/KdeModel.v
theories/KdeSpec.v
theories/KdeProofs.v
theories/KdeProofs2.v
theories/KdeProofs3.v
theories/KdeProofs4.v
theories/KdeProofs5.v
theories/KdeProps.v
theories/PotModel.v
theories/PotSpec.v
theories/PotProofs.v
theories/PotProofs2.v
theories/PotProofs3.v
theories/PotProofs4.v
theories/PotProofs5.v
theories/PotProps.v
theories/StatsModel.v
theories/StatsSpec.v
theories/StatsProofs.v
theories/StatsProofs2.v
theories/StatsProofs3.v
theories/StatsProps.v
theories/WaveModel.v
theories/WaveSpec.v
theories/WaveProofs.v
theories/WaveProofs2.v
theories/WaveProofs3.v
theories/WaveProofs4.v
theories/WaveProofs5.v
theories/WaveProps.v
theories/TransModel.v
theories/TransSpec.v
theories/TransProofs.v
theories/TransProofs2.v
theories/TransProofs3.v
theories/TransProofs4.v
theories/TransProofs5.v
theories/TransProps.v
theories/ProcModel.v
theories/ProcSpec.v
theories/ProcProofs.v
theories/ProcProofs2.v
theories/ProcProofs3.v
theories/ProcProofs4.v
theories/ProcProofs5.v
theories/ProcProofs6.v
theories/ProcProofs7.v
theories/ProcProps.v
theories/WaveCase.v
theories/CovModel.v
theories/CovSpec.v
theories/CovProofs.v
theories/CovProofs2.v
theories/CovProofs3.v
theories/CovProofs4.v
theories/CovProofs5.v
theories/CovProofs6.v
theories/CovProps.v
theories/SpcovModel.v
theories/SpcovSpec.v
theories/SpcovProofs.v
theories/SpcovProofs2.v
theories/SpcovProofs3.v
theories/SpcovProofs4.v
theories/SpcovProofs5.v
theories/SpcovProofs6.v
theories/SpcovProofs7.v
theories/SpcovProps.v
theories/SpectModel.v
theories/SpectSpec.v
theories/SpectProofs.v
theories/SpectProofs2.v
theories/SpectProofs3.v
theories/SpectProofs4.v
theories/SpectProofs5.v
theories/SpectProofs6.v
theories/SpectProofs7.v
theories/SpectProofs8.v
theories/SpectProofs9.v
theories/SpectProps.v
theories/PaduaModel.v
theories/PaduaSpec.v
theories/PaduaProofs.v
theories/PaduaProofs2.v
theories/PaduaProofs3.v
theories/PaduaProofs4.v
theories/PaduaProofs5.v
theories/PaduaCases.v
theories/PaduaProps.v
theories/ShiftModel.v
theories/ShiftSpec.v
theories/ShiftProofs.v
theories/ShiftProps.v
theories/SeaModel.v
theories/SeaSpec.v
theories/SeaProofs.v
theories/SeaProofs2.v
theories/SeaProofs3.v
theories/SeaCases.v
theories/SeaProofs4.v
theories/SeaProofs5.v
theories/SeaProofs6.v
theories/SeaProofs7.v
theories/SeaProps.v
theories/GammaProofs.v
theories/SpreadModel.v
theories/CosPow.v
theories/SpreadSpec.v
theories/SpreadProofs.v
theories/SpreadProofs2.v
theories/SpreadProofs3.v
theories/SpreadProofs4.v
theories/SpreadProofs5.v
theories/SpreadProps.v
theories/KernelModel.v
theories/KernelSpec.v
theories/KernelProofs.v
theories/KernelProofs2.v
theories/KernelProofs3.v
theories/Basel.v
theories/KernelProofs4.v
theories/KernelProofs5.v
theories/KernelProofs6.v
theories/KernelProofs7.v
theories/KernelProofs8.v
theories/KernelCases.v
theories/KernelProps.v
theories/TkdeModel.v
theories/TkdeSpec.v
theories/Subst.v
theories/TkdeProofs.v
theories/TkdeProofs2.v
theories/TkdeProofs3.v
theories/TkdeProofs4.v
theories/TkdeCases.v
theories/TkdeProps.v
theories/QlevModel.v
theories/QlevSpec.v
theories/QlevProofs.v
theories/QlevProofs2.v
theories/QlevProofs3.v
theories/QlevProofs4.v
theories/QlevProofs5.v
theories/QlevCases.v
theories/QlevProps.v
theories/SeaProofs8.v
theories/DctnModel.v
theories/DctnSpec.v
theories/DctnProofs.v
theories/DctnProofs2.v
theories/DctnProofs3.v
theories/DctnCases.v
theories/DctnProps.v
theories/RvModel.v
theories/RvSpec.v
theories/RvProofs.v
theories/RvProofs2.v
theories/RvProofs3.v
theories/RvProofs4.v
theories/RvProofs5.v
theories/RvCases.v
theories/RvProps.v
theories/RvnModel.v
theories/RvnSpec.v
theories/RvnProofs.v
theories/RvnProofs2.v
theories/RvnProofs3.v
theories/RvnProofs4.v
theories/RvnCases.v
theories/RvnProps.v
theories/SeaProofs9.v
theories/SpreadProofs6.v
theories/FitModel.v
theories/FitSpec.v
theories/FitProofs.v
theories/FitProofs2.v
theories/FitProofs3.v
theories/FitProofs4.v
theories/FitProofs5.v
theories/FitCases.v
theories/FitProps.v
theories/MoranModel.v
theories/MoranSpec.v
theories/MoranProofs.v
theories/MoranProofs2.v
theories/MoranProofs3.v
theories/MoranCases.v
theories/MoranProps.v
theories/PbinModel.v
theories/PbinSpec.v
theories/PbinProofs.v
theories/PbinProofs2.v
theories/PbinProofs3.v
theories/PbinCases.v
theories/PbinProps.v
theories/MagicModel.v
theories/MagicSpec.v
theories/MagicProofs.v
theories/MagicProofs2.v
theories/MagicProofs3.v
theories/MagicCases.v
theories/MagicProps.v
theories/DiscModel.v
theories/DiscSpec.v
theories/DiscProofs.v
theories/DiscProofs2.v
theories/DiscProofs3.v
theories/DiscCases.v
theories/DiscProps.v
theories/HistModel.v
theories/HistSpec.v
theories/HistProofs.v
theories/HistProofs2.v
theories/HistProofs3.v
theories/HistCases.v
theories/HistProps.v
theories/FourModel.v
theories/FourSpec.v
theories/FourProofs.v
theories/FourProofs2.v
theories/FourProps.v
theories/AltProofs.v
theories/PeakModel.v
theories/PeakSpec.v
theories/PeakProofs.v
theories/PeakProofs2.v
theories/PeakCases.v
theories/PeakProps.v
theories/LcxModel.v
theories/LcxSpec.v
theories/LcxProofs.v
theories/LcxProofs2.v
theories/LcxCases.v
theories/LcxProps.v
theories/ArModel.v
theories/ArSpec.v
theories/ArProofs.v
theories/ArProofs2.v
theories/ArProps.v
theories/CsimModel.v
theories/CsimSpec.v
theories/CsimProofs.v
theories/CsimProofs2.v
theories/CsimProofs3.v
theories/CsimCases.v
theories/CsimProps.v
theories/ScondModel.v
theories/ScondSpec.v
theories/ScondProofs.v
theories/ScondProofs2.v
theories/ScondProofs3.v
theories/ScondProps.v
theories/SgModel.v
theories/SgSpec.v
theories/SgProofs.v
theories/SgProofs2.v
theories/SgProofs3.v
theories/SgProps.v
theories/LgamModel.v
theories/LgamSpec.v
theories/LgamProofs.v
theories/LgamProofs2.v
theories/LgamProofs3.v
theories/LgamProofs4.v
theories/LgamCases.v
theories/LgamProps.v
theories/ShipModel.v
theories/ShipSpec.v
theories/ShipProofs.v
theories/ShipProps.v
theories/LinkModel.v
theories/LinkSpec.v
theories/LinkProofs.v
theories/LinkProofs2.v
theories/LinkProofs3.v
theories/LinkProps.v
theories/ProfModel.v
theories/ProfSpec.v
theories/ProfProofs.v
theories/ProfProofs2.v
theories/ProfProofs3.v
theories/ProfProps.v
theories/EstModel.v
theories/EstSpec.v
theories/EstProofs.v
theories/EstProofs2.v
theories/EstProofs3.v
theories/EstProofs4.v
theories/EstCases.v
theories/EstProps.v
theories/DmomModel.v
theories/DmomSpec.v
theories/DmomProofs.v
theories/DmomProofs2.v
theories/DmomProofs3.v
theories/DmomProps.v
theories/BvnModel.v
theories/BvnSpec.v
theories/BvnProofs.v
theories/BvnProofs2.v
theories/BvnProofs3.v
theories/BvnProofs4.v
theories/BvnCases.v
theories/BvnProps.v
theories/PdatModel.v
theories/PdatSpec.v
theories/PdatProofs.v
theories/PdatProofs2.v
theories/PdatCases.v
theories/PdatProps.v
theories/ChndModel.v
theories/ChndSpec.v
theories/ChndProofs.v
theories/ChndProofs2.v
theories/ChndProofs3.v
theories/ChndCases.v
theories/ChndProps.v
theories/ResaModel.v
theories/ResaSpec.v
theories/ResaProofs.v
theories/ResaProofs2.v
theories/ResaProofs3.v
theories/ResaProofs4.v
theories/ResaCases.v
theories/ResaProps.v
theories/Sg2Model.v
theories/Sg2Spec.v
theories/Sg2Proofs.v
theories/Sg2Proofs2.v
theories/Sg2Proofs3.v
theories/Sg2Proofs4.v
theories/Sg2Proofs5.v
theories/Sg2Proofs6.v
theories/Sg2Cases.v
theories/Sg2Props.v
theories/PadeModel.v
theories/PadeSpec.v
theories/PadeProofs.v
theories/PadeProofs2.v
theories/PadeProofs3.v
theories/PadeCases.v
theories/PadeProps.v
theories/OscModel.v
theories/OscSpec.v
theories/OscProofs.v
theories/OscProofs2.v
theories/OscProofs3.v
theories/OscProofs4.v
theories/OscProofs5.v
theories/OscProofs6.v
theories/OscProofs7.v
theories/OscCases.v
theories/OscProps.v
theories/ProfProofs4.v
theories/CsimProofs4.v
theories/BcastModel.v
theories/BcastSpec.v
theories/BcastProofs.v
theories/BcastProofs2.v
theories/BcastProofs3.v
theories/BcastProps.v
theories/AliasModel.v
theories/AliasSpec.v
theories/AliasProofs.v
theories/AliasProps.v
theories/WparModel.v
theories/WparSpec.v
theories/WparProofs.v
theories/WparProofs2.v
theories/WparProofs3.v
theories/WparCases.v
theories/WparProps.v
theories/DamModel.v
theories/DamSpec.v
theories/DamProofs.v
theories/DamProofs2.v
theories/DamProps.v
theories/DisuModel.v
theories/DisuSpec.v
theories/DisuProofs.v
theories/DisuProofs2.v
theories/DisuProofs3.v
theories/DisuProofs4.v
theories/DisuProofs5.v
theories/DisuProps.v
