-Q theories Verif
theories/Py.v
theories/Spec.v
theories/Nd.v
theories/LinAlg.v
theories/Dmx.v
theories/DmxProofs.v
theories/LgpModel.v
theories/LgpTheory.v
theories/LgpProofs.v
theories/FunctionalProofs.v
theories/LinProps.v
theories/LinProps2.v
theories/LinProps3.v
theories/LinExamples.v
theories/IterModel.v
theories/IterProps.v
theories/IterProps2.v
theories/IterProps3.v
theories/IterExamples.v
theories/LinProps4.v
theories/LinProps5.v
theories/WmeModel.v
theories/WmeProps.v
theories/WmeProps2.v
theories/WmeExamples.v
theories/Xnum.v
theories/XnumProofs.v
theories/UtilModel.v
theories/DensityModel.v
theories/NdProofs.v
theories/DensityProps.v
theories/DensityProps2.v
theories/DensityProps3.v
theories/DensityProps4.v
theories/DensityExamples.v
theories/BayesModel.v
theories/BayesProps.v
theories/BayesProps2.v
theories/RealsStruct.v
theories/BayesExamples.v
theories/UtilModel2.v
theories/UtilProps.v
theories/UtilProps2.v
theories/UtilProps3.v
theories/UtilExamples.v
theories/StModel.v
theories/StProps.v
theories/StProps2.v
theories/StProps3.v
theories/StProps4.v
theories/StProps5.v
theories/StExamples.v
theories/FunsModel.v
theories/FunsProps.v
theories/FunsProps2.v
theories/FunsExamples.v
theories/PlotModel.v
theories/PlotProps.v
theories/PlotProps2.v
theories/PlotProps3.v
theories/PrepModel.v
theories/PrepProps.v
theories/PlotExamples.v
theories/LinProps6.v
theories/LinExModel.v
theories/LinExProps.v
theories/LinExProps2.v
theories/LinExProps3.v
theories/LinExProps4.v
theories/LinExProps5.v
theories/LinExProps6.v
theories/LinExProps7.v
theories/LinExProps8.v
theories/LinExProps9.v
theories/LinExExamples.v
theories/Tighten.v
theories/PoisModel.v
theories/PoisProps.v
theories/PoisExamples.v
theories/SimpleModel.v
theories/SimpleProps.v
theories/SimpleExamples.v
theories/StExModel.v
theories/StExProps.v
theories/StExExamples.v
theories/DrawModel.v
theories/DrawProps.v
theories/DrawProps2.v
theories/DrawProps3.v
theories/DrawExamples.v
theories/FenModel.v
theories/FenProps.v
theories/FenExamples.v
theories/ContModel.v
theories/ContProps.v
theories/ContProps2.v
theories/ContExamples.v
theories/PoisExModel.v
theories/PoisExProps.v
theories/PoisExProps2.v
theories/PoisExProps3.v
theories/PoisExExamples.v
theories/AdcModel.v
theories/AdcProps.v
theories/AdcProps2.v
theories/AdcProps3.v
theories/AdcProps4.v
theories/AdcExamples.v
theories/CliModel.v
theories/CliProps.v
theories/CliProps2.v
theories/CliProps3.v
theories/CliExamples.v
theories/CompModel.v
theories/CompProps.v
theories/CompProps2.v
theories/CompProps3.v
theories/CompExamples.v
theories/Tighten2.v
theories/EigTheory.v
theories/LinFigModel.v
theories/LinFigProps.v
theories/LinFigExamples.v
theories/PaperModel.v
theories/PaperProps.v
theories/PaperProps2.v
theories/PaperProps3.v
theories/PaperProps4.v
theories/PaperExamples.v
theories/PypModel.v
theories/PypProps.v
theories/PypExamples.v
theories/Tighten3.v
theories/CliProps4.v
theories/AllModel.v
theories/AllProps.v
theories/AllProps2.v
theories/AllProps3.v
theories/AllExamples.v
theories/AllExamples2.v
theories/ParamProps.v
theories/ParamExamples.v
theories/OrderProps.v
theories/OrderProps2.v
theories/OrderExamples.v
theories/ZeroProps.v
theories/ZeroExamples.v
theories/LatexModel.v
theories/LatexProps.v
theories/LatexExamples.v
theories/RotProps.v
theories/WmeOrderProps.v
theories/RotExamples.v
theories/StOrderProps.v
theories/StOrderExamples.v
theories/LinearityProps.v
theories/LinearityExamples.v
theories/UnitsProps.v
theories/UnitsExamples.v
theories/UnitsProps2.v
theories/UnitsExamples2.v
theories/MoreProps.v
theories/MoreProps2.v
